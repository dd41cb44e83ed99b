(** P_Float32.v -- property C67: dissimilarities of type [f32] with losses of type [f64]: the conversion
    is exact, so what C60 to C66 say holds without any hypothesis on the size of the entries.  Every
    theorem is followed by a concrete input which meets its hypotheses. *)
From Coq Require Import ZArith QArith Qabs Lqa Lia Permutation.
From Coq.Floats Require Import SpecFloat.
From Verif Require Import Base Num M_Mat M_Util M_Fasterpam M_Pam M_ParFasterpam M_Alternating M_Silhouette M_Msc M_Pammedsil M_Dynmsc
  M_Pamsil Inst Hoare Spec SpecFacts Laws FloatFacts FloatRound PamShape PamFacts MscShape MscExact MscFacts ParFacts AltFacts
  PamsilFacts FloatMain FloatSil FloatFmt FloatQuality FloatMsc Term TermFloat Float32 Ex P_Fasterpam P_Pam P_Float P_Bounded P_Rounding P_Term P_FloatOpt
  P_ParFloat P_FloatMsc P_FloatBuild P_FloatBuildMsc P_FloatPamsil.
Open Scope nat_scope.

(** the greatest entry *)
Definition greatest (n : nat) (D : nat -> nat -> f32) (mx : Q) : Prop :=
  (exists x y, x < n /\ y < n /\ (vals D x y == mx)%Q) /\ forall x y, x < n -> y < n -> (vals D x y <= mx)%Q.

(** C67.  The conversion loses nothing, and there is room for everything in an [f64]. *)
Theorem C67_conversion (x : f32) : okN x ->
  f64_finite (lfrom x) /\ (f64_val (lfrom x) == vN x)%Q /\ (vN x <= 2 ^ 128)%Q /\ ((0 < vN x)%Q -> (2 ^ (-149) <= vN x)%Q).
Proof.
  intros h. destruct (widen_exact _ h) as [h1 h2]. destruct (sf_bounds _ h) as [h3 h4].
  split; [exact h1|]. split; [exact h2|]. split; [exact h3|]. intros hp. destruct h4 as [h4|h4]; [apply Qlt_le_weak; exact hp| |exact h4].
  exfalso. cbn [vN OrdLaws_f32] in hp. rewrite h4 in hp. discriminate hp.
Qed.
Print Assumptions C67_conversion.

Section Range.
  Variables (M : Mat f32) (n : nat) (D : nat -> nat -> f32).
  Hypothesis HD : diss_matrix M n D.

  Lemma exact32 : exact_from n D.
  Proof. apply (f32_exact_from (diss_nonneg _ _ _ HD)). Qed.
  Lemma at_most32 mx : greatest n D mx -> at_most n D mx.
  Proof.
    intros [(x & y & hx & hy & e) h]. split; [|exact h]. rewrite <- e.
    apply Qle_trans with (2 ^ 128)%Q; [apply (C67_conversion (D x y)); apply (proj2 (proj2 HD)); auto|]. vm_compute. discriminate.
  Qed.
  Lemma range32 : normal_range n D.
  Proof.
    intros x y hx hy. destruct (proj2 (proj2 HD) x y hx hy) as [h1 h2]. destruct (C67_conversion (D x y) h1) as (_ & _ & h3 & h4). split.
    - destruct (Qlt_le_dec 0 (vals D x y)) as [hp|hp]; [right|left; unfold vals in *; lra].
      apply Qle_trans with (2 ^ (-149))%Q; [vm_compute; discriminate|apply h4; exact hp].
    - apply Qle_trans with (2 ^ 128)%Q; [exact h3|]. vm_compute. discriminate.
  Qed.
End Range.

Lemma greatest_exists n (D : nat -> nat -> f32) : 1 <= n -> exists mx, greatest n D mx.
Proof.
  intros hn.
  assert (G : forall (f : nat -> Q) m, 1 <= m -> exists i, i < m /\ forall j, j < m -> (f j <= f i)%Q).
  { intros f m. induction m as [|m IH]; [lia|]. intros _. destruct (Nat.eq_dec m 0) as [->|h0].
    - exists 0. split; [lia|]. intros j hj. replace j with 0 by lia. lra.
    - destruct IH as (i & hi & h); [lia|]. destruct (Qlt_le_dec (f i) (f m)) as [hlt|hle].
      + exists m. split; [lia|]. intros j hj. destruct (Nat.eq_dec j m) as [->|]; [lra|]. specialize (h j ltac:(lia)). lra.
      + exists i. split; [lia|]. intros j hj. destruct (Nat.eq_dec j m) as [->|]; [auto|]. apply h. lia. }
  destruct (G (fun p => vals D (p / n) (p mod n)) (n * n)) as (i & hi & h); [nia|].
  exists (vals D (i / n) (i mod n)). split.
  - exists (i / n), (i mod n). split; [apply Nat.div_lt_upper_bound; lia|]. split; [apply Nat.mod_upper_bound; lia|reflexivity].
  - intros x y hx hy. specialize (h (x * n + y) ltac:(nia)). cbv beta in h.
    replace ((x * n + y) / n) with x in h by (rewrite Nat.div_add_l, Nat.div_small; lia).
    replace ((x * n + y) mod n) with y in h; [exact h|].
    rewrite Nat.add_comm, Nat.mod_add, Nat.mod_small; lia.
Qed.

(** *** a concrete matrix *)
Definition entries32 (rows : list (list f32)) (x y : nat) : f32 := nth y (nth x rows []) (F32 (S754_zero false)).
Definition f32_b (x : f32) : bool :=
  match sf32 x with S754_zero s => negb s | S754_finite s m e => negb s && bounded sprec semax m e | _ => false end.
Definition rows32_ok (n : nat) (rows : list (list f32)) : bool :=
  (length rows =? n) && forallb (fun r => length r =? n) rows &&
  forallb (fun i => f64_zero_b (sf32 (entries32 rows i i))) (seq 0 n) &&
  forallb (fun i => forallb (fun j => f32_b (entries32 rows i j)) (seq 0 n)) (seq 0 n).

Lemma rows32_diss n rows : 1 <= n -> rows32_ok n rows = true ->
  diss_matrix (mat_of_rows rows) n (entries32 rows) /\ no_negative_zero32 n (entries32 rows).
Proof.
  intros hn h. apply andb_true_iff in h as [h h4]. apply andb_true_iff in h as [h h3].
  apply andb_true_iff in h as [h1 h2]. apply Nat.eqb_eq in h1. rewrite forallb_forall in h2.
  assert (hl : forall r, In r rows -> length r = n) by (intros r hr; apply Nat.eqb_eq; auto).
  assert (hc : length (hd [] rows) = n) by (destruct rows; simpl in *; [lia|auto]).
  split; [split; [split; [exact h1|split]|split]|].
  - simpl. rewrite h1, hc, Nat.eqb_refl. auto.
  - intros x y hx hy. simpl. rewrite h1, hc.
    apply Nat.ltb_lt in hx as hx'. apply Nat.ltb_lt in hy as hy'. rewrite hx', hy'. simpl.
    apply idx_some. rewrite (concat_rows (n := n)) by (auto; lia). unfold entries32.
    apply nth_error_nth'. rewrite hl; auto. apply nth_In. lia.
  - intros x hx. pose proof (forallb_seq _ h3 hx) as h5. cbv beta in h5.
    destruct (entries32 rows x x) as [[[|]|[|]| |[|] m e]]; try discriminate h5. reflexivity.
  - intros x y hx hy. pose proof (forallb_seq _ h4 hx) as h5. pose proof (forallb_seq _ h5 hy) as h6.
    cbv beta in h6. unfold vals. cbn [okN vN OrdLaws_f32]. unfold f32_b in h6.
    destruct (sf32 (entries32 rows x y)) as [s|s| |s m e]; try discriminate h6; cbn [sf_finite f64_val] in *.
    + split; [exact I|apply Qle_refl].
    + apply andb_true_iff in h6 as [h6 h7]. split; [auto|]. destruct s; [discriminate h6|].
      apply Qlt_le_weak, f64_pos.
  - intros x y hx hy e. pose proof (forallb_seq _ h4 hx) as h5. pose proof (forallb_seq _ h5 hy) as h6.
    cbv beta in h6. unfold f32_b in h6. rewrite e in h6. discriminate h6.
Qed.

(** the [f32] nearest to z / 10 *)
Definition tenth32 (z : Z) : f32 :=
  F32 (SFdiv sprec semax (binary_normalize sprec semax z 0 false) (binary_normalize sprec semax 10 0 false)).
Definition rows_s : list (list f32) := Eval vm_compute in map (map tenth32)
  [[0; 8; 1; 2; 4]; [8; 0; 9; 9; 4]; [1; 9; 0; 3; 3]; [2; 9; 3; 0; 2]; [4; 4; 3; 2; 0]]%Z.
Lemma s_diss : diss_matrix (mat_of_rows rows_s) 5 (entries32 rows_s).
Proof. apply rows32_diss; [lia|reflexivity]. Qed.
Lemma s_zero : no_negative_zero32 5 (entries32 rows_s).
Proof. apply rows32_diss; [lia|reflexivity]. Qed.
Lemma s_greatest : greatest 5 (entries32 rows_s) (vals (entries32 rows_s) 1 2).
Proof.
  split; [exists 1, 2; split; [lia|split; [lia|reflexivity]]|]. intros x y hx hy.
  do 5 (destruct x; [do 5 (destruct y; [vm_compute; discriminate|]); lia|]). lia.
Qed.
Definition C67_case_conversion := C67_conversion (entries32 rows_s 1 2) eq_refl.
(** 0.9 is not exact in either format *)
Lemma C67_case_tenth : Qeq_bool (vN (entries32 rows_s 1 2)) (9 # 10) = false /\ lfrom (entries32 rows_s 1 2) <> tenth 9.
Proof. split; [vm_compute; reflexivity|]. vm_compute. discriminate. Qed.

(** The algorithms for the total deviation. *)
Theorem C67_total_deviation (M : Mat f32) n D order orc med maxiter mx :
  diss_matrix M n D -> greatest n D mx -> sizes n (length med) -> medoids n (length med) med -> 2 <= length med ->
  Permutation order (seq 0 n) -> valid_oracle orc ->
  exists r1 r2 r3 r4 : pam_result f64, fastpam1 M med maxiter = Ok r1 /\ pam_swap M med maxiter = Ok r2 /\
    rand_fasterpam M order med maxiter = Ok r3 /\ par_fasterpam M orc order med maxiter = Ok r4 /\
    (forall r, r = r1 \/ r = r2 ->
      (tdev (vals D) n (r_med r) <= tdev (vals D) n med + 3 * rounding n mx)%Q /\
      (r_iter r < maxiter -> stops_near (vals D) n (length med) (rounding n mx) r /\
        (metric n (vals D) -> five_up_to (vals D) n (length med) (rounding n mx) (r_med r)))) /\
    (forall r, r = r3 \/ r = r4 ->
      (tdev (vals D) n (r_med r) <= tdev (vals D) n med + inject_Z (Z.of_nat n + 1) * rounding n mx)%Q /\
      (r_swaps r = 0 -> 1 <= maxiter -> nearly_optimal (vals D) n (r_med r) (rounding n mx))) /\
    (r_iter r3 < maxiter -> nearly_optimal (vals D) n (r_med r3) (rounding n mx) \/ stalled (rand_fasterpam M order med) r3) /\
    (r_iter r4 < maxiter -> nearly_optimal (vals D) n (r_med r4) (rounding n mx) \/ stalled (par_fasterpam M orc order med) r4).
Proof.
  intros hd hg hs hm hk hp hor. pose proof (exact32 M n D hd) as he. pose proof (at_most32 M n D hd mx hg) as hb.
  assert (hz : lfrom (nzero : f32) = S754_zero false) by reflexivity.
  destruct (C61_fastpam1_pam M n D med maxiter mx hd he hb hs hm hk hz) as (r1 & r2 & e1 & e2 & h12).
  destruct (C61_fasterpam M n D order med maxiter mx hd he hb hs hm hk hz hp) as (r3 & e3 & a3 & b3 & c3).
  destruct (C62_quality M n D orc order med maxiter mx hd he hb hs (proj2 (proj2 hm)) hk hz hp hor) as (r4 & e4 & a4 & b4 & c4).
  exists r1, r2, r3, r4. do 4 (split; [assumption|]). split.
  - intros r hr. destruct (h12 r hr) as [g1 g2]. split; [exact g1|]. intros hlt. split; [auto|]. intros hme.
    destruct (C61_metric M n D med maxiter mx hd he hb hs hm hk hz hme) as (r1' & r2' & f1 & f2 & m1 & m2).
    assert (r1' = r1) by congruence. assert (r2' = r2) by congruence. subst. destruct hr as [->| ->]; auto.
  - split; [|split; assumption]. intros r [->| ->]; split; assumption.
Qed.
Print Assumptions C67_total_deviation.
Definition C67_case_total_deviation := C67_total_deviation _ 5 _ [4; 2; 0; 1; 3] P_Pam.orc2 [0; 1] 10 _ s_diss s_greatest s52 k52 (le_n 2) perm5' P_Pam.orc2_ok.

(** BUILD, pam, alternating and the search for one medoid *)
Theorem C67_build_alternating (M : Mat f32) n D med k maxiter order orc mx :
  diss_matrix M n D -> greatest n D mx -> sizes n k -> medoids n k med ->
  (exists loss assi meds (r : pam_result f64), pam_build M k = Ok (loss, assi, meds) /\ pam M k maxiter = Ok r /\
    1 <= length meds <= k /\ medoids n (length meds) meds /\ (length meds = k \/ (tdev (vals D) n meds == 0)%Q) /\
    nearly_greedy (vals D) n meds (rounding n mx) /\ off_by (rounding n mx) (tdev (vals D) n meds) loss /\
    (forall o, o < n -> nearest (vals D) o meds (nth o assi 0)) /\
    (2 <= length meds -> (tdev (vals D) n (r_med r) <= tdev (vals D) n meds + 3 * rounding n mx)%Q /\
       (r_iter r < maxiter -> stops_near (vals D) n (length meds) (rounding n mx) r /\
          (metric n (vals D) -> five_up_to (vals D) n (length meds) (rounding n mx) (r_med r))))) /\
  (exists r : pam_result f64, alternating M med maxiter = Ok r /\
    medoids n k (r_med r) /\ (forall o, o < n -> nearest (vals D) o (r_med r) (nth o (r_assi r) 0)) /\
    (symmetric n (vals D) -> (tdev (vals D) n (r_med r) <=
       tdev (vals D) n med + inject_Z (Z.of_nat (r_iter r) * Z.of_nat k) * rounding n mx)%Q) /\
    (r_iter r < maxiter -> forall c j, c < k -> j < n -> nth j (r_assi r) 0 = c ->
       (cluster_cost (vals D) n (r_assi r) c (nth c (r_med r) 0%nat) <=
        cluster_cost (vals D) n (r_assi r) c j + rounding n mx)%Q)) /\
  (forall x, x < n -> forall m, In m [fasterpam M [x] maxiter; rand_fasterpam M order [x] maxiter; par_fasterpam M orc order [x] maxiter;
      fastpam1 M [x] maxiter; pam_swap M [x] maxiter; fastermsc M [x] maxiter; fastmsc M [x] maxiter;
      pammedsil_swap M [x] maxiter; pamsil_swap M [x] maxiter; pam M 1 maxiter] ->
    nearly_best_single (vals D) n (rounding n mx) m).
Proof.
  intros hd hg hs hm. pose proof (exact32 M n D hd) as he. pose proof (at_most32 M n D hd mx hg) as hb.
  assert (hz : lfrom (nzero : f32) = S754_zero false) by reflexivity. split; [|split].
  - destruct (C64_build M n D k mx hd he hb hs) as (loss & assi & meds & e1 & h1 & h2 & h3 & h4 & h5 & _ & h6).
    destruct (C64_pam M n D k maxiter mx hd he hb hs hz) as (loss' & assi' & meds' & r & e1' & e2 & h7 & _).
    rewrite e1 in e1'. injection e1' as <- <- <-. exists loss, assi, meds, r. do 8 (split; [assumption|]). exact h7.
  - assert (hk : length med = k) by apply hm. subst k.
    destruct (C64_alternating M n D med maxiter mx hd he hb hs hm) as (r & e & h1 & _ & h2 & _ & h3 & h4).
    exists r. do 4 (split; [assumption|]). exact h4.
  - intros x hx. apply (C64_single M n D x maxiter order orc mx hd he hb); [|exact hx]. unfold sizes in hs |- *. lia.
Qed.
Print Assumptions C67_build_alternating.
Definition C67_case_build_alternating := C67_build_alternating _ 5 _ [0; 1] 2 10 [4; 2; 0; 1; 3] P_Pam.orc2 _ s_diss s_greatest s52 k52.

(** The medoid silhouette.  [fastmsc] and [fastermsc] add dissimilarities before they divide: these sums
    are rounded to an [f32], so that the error is 2^-17 more than in C63; and they must not overflow. *)
Definition sil_error32 (n : nat) : Q := (sil_error n + 2 ^ (-17))%Q.

Lemma errors32 n : (sil_errors (U := err32) n <= sil_error32 n)%Q.
Proof.
  unfold sil_errors, sil_error32. cbn [serr err32]. assert (e : (2 ^ (-17) == 128 * 2 ^ (-24))%Q) by reflexivity.
  assert (0 < 2 ^ (-53))%Q by reflexivity. lra.
Qed.

Theorem C67_medoid_silhouette (M : Mat f32) n D med maxiter :
  diss_matrix M n D -> (forall x y, x < n -> y < n -> (vals D x y <= 2 ^ 126)%Q) -> sizes n (length med) ->
  medoids n (length med) med -> 2 <= length med ->
  exists r1 r2 r3 : pam_result f64, fastmsc M med maxiter = Ok r1 /\ pammedsil_swap M med maxiter = Ok r2 /\ fastermsc M med maxiter = Ok r3 /\
    (forall r, r = r1 \/ r = r2 ->
      (med_sil (vals D) n med <= med_sil (vals D) n (r_med r) + 2 * sil_error32 n)%Q /\
      off_by (2 * sil_error32 n) (med_sil (vals D) n (r_med r)) (r_loss r) /\
      (r_iter r < maxiter -> stops_sil (vals D) n (length med) (sil_error32 n) r)) /\
    (med_sil (vals D) n med <= med_sil (vals D) n (r_med r3) + inject_Z (Z.of_nat n + 1) * sil_error32 n)%Q /\
    off_by (sil_error32 n) (med_sil (vals D) n (r_med r3)) (r_loss r3) /\
    (r_swaps r3 = 0 -> 1 <= maxiter -> nearly_sil (vals D) n (r_med r3) (sil_error32 n)) /\
    (r_iter r3 < maxiter -> nearly_sil (vals D) n (r_med r3) (sil_error32 n) \/ stalled_sil (fastermsc M med) r3).
Proof.
  intros hd hb hs hm hk. pose proof (exact32 M n D hd) as he. pose proof (errors32 n) as h32.
  pose proof (f32_adds_within (diss_nonneg _ _ _ hd) hb) as ha.
  destruct (fastmsc_pammedsil_errors (U := err32) M n D med maxiter hd he ha hs hm hk) as (r1 & r2 & e1 & e2 & h12).
  destruct (fastermsc_errors (U := err32) M n D med maxiter hd he ha hs hm hk) as (r3 & e3 & a1 & a2 & a3 & a4).
  exists r1, r2, r3. do 3 (split; [assumption|]). split.
  - intros r hr. destruct (h12 r hr) as (g1 & g2 & g3). split; [lra|]. split; [apply off_by_mono with (2 := g2); lra|].
    intros hlt. apply stops_sil_mono with (2 := g3 hlt). exact h32.
  - split.
    { apply Qle_trans with (1 := a1). apply Qplus_le_r. rewrite !(Qmult_comm (inject_Z (Z.of_nat n + 1))).
      apply Qmult_le_compat_r; [exact h32|]. change 0%Q with (inject_Z 0). rewrite <- Zle_Qle. lia. }
    split; [apply off_by_mono with (2 := a2); exact h32|].
    split; [intros x y; apply nearly_sil_mono with (2 := a3 x y); exact h32|].
    intros hlt. destruct (a4 hlt) as [h|h]; [left; apply nearly_sil_mono with (2 := h); exact h32|right; exact h].
Qed.
Print Assumptions C67_medoid_silhouette.
Lemma s_small x y : x < 5 -> y < 5 -> (vals (entries32 rows_s) x y <= 2 ^ 126)%Q.
Proof. intros hx hy. apply Qle_trans with (1 := proj2 s_greatest x y hx hy). vm_compute. discriminate. Qed.
Definition C67_case_medoid_silhouette := C67_medoid_silhouette _ 5 _ [0; 1; 2] 10 s_diss s_small s53 k53 le23.
Definition C67_case_two := C67_medoid_silhouette _ 5 _ [0; 1] 10 s_diss s_small s52 k52 (le_n 2).

(** pammedsil and dynmsc: as for [f64]; only the choice of the medoid dropped first depends on the sums *)
Theorem C67_pammedsil_dynmsc (M : Mat f32) n D med k mink maxiter mx :
  diss_matrix M n D -> greatest n D mx -> sizes n k -> medoids n k med ->
  (exists meds (r : pam_result f64), pammedsil M k maxiter = Ok r /\
    1 <= length meds <= k /\ medoids n (length meds) meds /\ nearly_greedy_but_0 (vals D) n meds (rounding n mx) /\
    (length meds = k \/ forall y, 1 <= y < n -> (mindist (vals D) y meds == 0)%Q) /\
    (2 <= length meds ->
      (med_sil (vals D) n meds <= med_sil (vals D) n (r_med r) + 2 * sil_error n)%Q /\
      off_by (2 * sil_error n) (med_sil (vals D) n (r_med r)) (r_loss r) /\
      (r_iter r < maxiter -> stops_sil (vals D) n (length meds) (sil_error n) r))) /\
  (2 <= k -> let mk := Nat.min (Nat.max mink 1) k in
    exists r : dyn_result f64, dynmsc M med mink maxiter = Ok r /\
    let p := d_res r in let c := length (r_med p) in
    length (d_losses r) = k - mk + 1 /\ mk <= c /\ 2 <= c <= k /\ medoids n c (r_med p) /\
    nth (c - mk) (d_losses r) S754_nan = r_loss p /\ SFltb (S754_zero false) (r_loss p) = true /\
    (forall x, In x (d_losses r) -> x <> S754_nan /\ SFltb (r_loss p) x = false) /\
    (k <= 4 \/ c = k \/ c = 2 ->
      off_by (sil_error n) (med_sil (vals D) n (r_med p)) (r_loss p) /\
      (forall o, o < n -> nearest (vals D) o (r_med p) (nth o (r_assi p) 0)))) /\
  (3 <= k -> Nat.max mink 1 < k -> (mx <= 2 ^ 126)%Q ->
    exists (r : dyn_result f64) med', dynmsc M med mink 0 = Ok r /\ drop_one med med' /\
      off_by (sil_error32 n) (med_sil (vals D) n med') (nth (k - 1 - Nat.max mink 1) (d_losses r) S754_nan) /\
      forall med'', drop_one med med'' -> (med_sil (vals D) n med' <= med_sil (vals D) n med'' + sil_error32 n)%Q).
Proof.
  intros hd hg hs hm. pose proof (exact32 M n D hd) as he. pose proof (at_most32 M n D hd mx hg) as hb.
  assert (hk : length med = k) by apply hm. split; [|split].
  - destruct (C65_pammedsil M n D k maxiter mx hd he hb hs) as (meds & r & e & h1 & h2 & h3 & h4 & h5 & _).
    exists meds, r. do 5 (split; [assumption|]). intros hl. apply (h5 hl).
  - intros hk2 mk. subst k.
    destruct (C65_dynmsc M n D med mink maxiter hd he hs hm hk2) as (r & e & h1 & h2 & h3 & h4 & h5 & _ & _ & _ & _ & h6 & h7 & h8 & _).
    exists r. split; [exact e|]. cbv zeta. tauto.
  - intros hk3 hlt hmx. subst k. pose proof (errors32 n) as h32.
    assert (hb' : forall x y, x < n -> y < n -> (vals D x y <= 2 ^ 126)%Q).
    { intros x y hx hy. apply Qle_trans with (2 := hmx). apply (proj2 hg); auto. }
    pose proof (f32_adds_within (diss_nonneg _ _ _ hd) hb') as ha.
    destruct (dynmsc_drops_errors (U := err32) M n D med mink hd he ha hs hm hk3 hlt) as (r & med' & e & h1 & h2 & h3).
    exists r, med'. split; [exact e|]. split; [exact h1|]. split; [apply off_by_mono with (2 := h2); exact h32|].
    intros med'' hm''. specialize (h3 _ hm''). lra.
Qed.
Print Assumptions C67_pammedsil_dynmsc.
Definition C67_case_pammedsil_dynmsc := C67_pammedsil_dynmsc _ 5 _ [0; 1; 2] 3 1 10 _ s_diss s_greatest s53 k53.

(** The silhouette and PAMSIL: unlike with [f64] (C66) no entry can be too small or too large. *)
Theorem C67_silhouette (M : Mat f32) n D assi K samples :
  diss_matrix M n D -> length assi = n -> (N.of_nat n <= 4294967295)%N -> 2 <= K -> dense K assi ->
  exists (value : f64) vec, silhouette M assi samples = Ok (value, vec) /\
    finite_in (-1) 1 value /\ off_by (mean_rounding n) (sil_mean (vals D) assi) value /\
    (samples = true -> length vec = n /\
       forall i, i < n -> finite_in (-1) 1 (nth i vec lzero) /\
         off_by (object_rounding n) (sil_object (vals D) assi i) (nth i vec lzero)).
Proof.
  intros hd hl hn hK hde. apply (C66_silhouette M n D assi K samples); auto.
  - apply diss_nonneg. exact hd.
  - apply (exact32 M n D hd).
  - apply (range32 M n D hd).
Qed.
Print Assumptions C67_silhouette.

Theorem C67_pamsil (M : Mat f32) n D k maxiter mx :
  diss_matrix M n D -> greatest n D mx -> sizes n k -> 2 <= k ->
  exists (r : pam_result f64) meds loss, pamsil M k maxiter = Ok r /\
    length meds = k /\ (forall m, In m meds -> m < n) /\ nearly_greedy (vals D) n meds (rounding n mx) /\
    (NoDup meds \/ (tdev (vals D) n meds == 0)%Q) /\
    length (r_med r) = k /\ (forall m, In m (r_med r) -> m < n) /\
    assign_nearest M (r_med r) = Ok (loss, r_assi r) /\
    (forall o, o < n -> nearest (vals D) o (r_med r) (nth o (r_assi r) 0)) /\
    (r_swaps r = 0 -> r_med r = meds /\ r_loss r = S754_zero false) /\
    (0 < r_swaps r -> (0 < f64_val (r_loss r))%Q /\
       (NoDup (r_med r) -> off_by (mean_rounding n) (sil_mean (vals D) (r_assi r)) (r_loss r))) /\
    r_iter r <= maxiter /\ r_swaps r <= n ^ k /\
    (r_iter r < maxiter \/ n ^ k < maxiter -> NoDup (r_med r) ->
     clustering_sil_optimal (vals D) n (r_med r) (f64_val (r_loss r) + mean_rounding n)).
Proof.
  intros hd hg hs hk. apply (C66_pamsil M n D k maxiter mx hd (exact32 M n D hd) (range32 M n D hd) (at_most32 M n D hd mx hg) hs hk eq_refl).
Qed.
Print Assumptions C67_pamsil.
Definition C67_case_pamsil := C67_pamsil _ 5 _ 3 10 _ s_diss s_greatest s53 le23.

(** All of them stop by themselves. *)
Theorem C67_termination (M : Mat f32) n D med order :
  diss_matrix M n D -> no_negative_zero32 n D -> sizes n (length med) -> (forall m, In m med -> m < n) ->
  (forall j, In j order -> j < n) ->
  (forall run, In run [fasterpam (Lt := f64) M med; rand_fasterpam (Lt := f64) M order med; fastpam1 (Lt := f64) M med;
      pam_swap (Lt := f64) M med; fastermsc (Lt := f64) M med; fastmsc (Lt := f64) M med; pammedsil_swap (Lt := f64) M med] ->
     stops_by_itself run (n ^ length med)) /\
  (forall k, sizes n k -> stops_by_itself (pam (Lt := f64) M k) (S (n ^ k)) /\
     stops_by_itself (pammedsil (Lt := f64) M k) (S (n ^ k))).
Proof.
  intros HD hz hs hin ho. pose proof (same_losses_f32 HD hz) as hsame. pose proof (@ratios_ok_f32 n D) as hrat.
  assert (hz0 : lfrom (nzero : f32) = (lzero : f64)) by reflexivity. split.
  - intros run [<-|[<-|[<-|[<-|[<-|[<-|[<-|[]]]]]]]].
    + apply (fasterpam_by_itself (Lt := f64) M n D HD hsame hz0 (seq 0 (mlen M))); auto.
      intros j hj. apply in_seq in hj. rewrite (len_n (proj1 HD)) in hj. lia.
    + apply (fasterpam_by_itself (Lt := f64) M n D HD hsame hz0 order); auto.
    + apply (fastpam1_by_itself (Lt := f64) M n D HD hsame hz0); auto.
    + apply (pam_swap_by_itself (Lt := f64) M n D HD hsame hz0); auto.
    + apply (fastermsc_by_itself (Lt := f64) M n D HD hsame hrat); auto.
    + apply (fastmsc_by_itself (Lt := f64) M n D HD hsame hrat); auto.
    + apply (pammedsil_swap_by_itself (Lt := f64) M n D HD hsame hrat); auto.
  - intros k hk. split; [apply (pam_by_itself (Lt := f64) M n D HD hsame hz0); auto|
      apply (pammedsil_by_itself (Lt := f64) M n D HD hsame hrat); auto].
Qed.
Print Assumptions C67_termination.
Definition C67_case_termination := C67_termination _ 5 _ [0; 1; 2] [4; 2; 0; 1; 3] s_diss s_zero s53
  (below5 [0; 1; 2] eq_refl) (below5 [4; 2; 0; 1; 3] eq_refl).
Definition C67_case_silhouette := C67_silhouette _ 5 _ [0; 0; 0; 1; 1] 2 true s_diss eq_refl ltac:(vm_compute; discriminate) (le_n 2) P_Silhouette.dense5.

(** Near the upper end of the range the sums do overflow, and fastmsc and fastermsc miss a swap which
    raises the medoid silhouette by 2/15; PAMMEDSIL, which does not add dissimilarities, finds it. *)
Definition rows_ov : list (list f32) := Eval vm_compute in map (map (fun z => F32 (binary_normalize sprec semax z 125 false)))
  [[0; 7; 6; 6; 7]; [7; 0; 6; 1; 6]; [6; 6; 0; 7; 6]; [6; 1; 7; 0; 2]; [7; 6; 6; 2; 0]]%Z.
Theorem C67_overflow_refuted : exists (M : Mat f32) n D med, diss_matrix M n D /\ symmetric n (vals D) /\ sizes n (length med) /\
  medoids n (length med) med /\
  (forall maxiter, 2 <= maxiter -> exists r1 r2 : pam_result f64, fastmsc M med maxiter = Ok r1 /\ fastermsc M med maxiter = Ok r2 /\
     r_iter r1 < maxiter /\ r_iter r2 < maxiter /\ r_med r1 = med /\ r_med r2 = med) /\
  (exists r : pam_result f64, pammedsil_swap M med 10 = Ok r /\ (med_sil (vals D) n med + (2 # 15) == med_sil (vals D) n (r_med r))%Q) /\
  (exists b j, b < length med /\ j < n /\ (med_sil (vals D) n med + (2 # 15) == med_sil (vals D) n (swap med b j))%Q).
Proof.
  exists (mat_of_rows rows_ov), 5, (entries32 rows_ov), [0; 1; 2].
  split; [apply rows32_diss; [lia|reflexivity]|]. split.
  { intros x y hx hy. do 5 (destruct x; [do 5 (destruct y; [vm_compute; reflexivity|]); lia|]). lia. }
  split; [exact s53|]. split; [exact k53|]. split; [|split].
  - intros maxiter hm. destruct maxiter as [|[|f]]; try lia. do 2 eexists.
    split; [vm_compute; reflexivity|]. split; [vm_compute; reflexivity|]. cbn [r_iter r_med]. repeat split; lia.
  - eexists. split; [vm_compute; reflexivity|]. vm_compute. reflexivity.
  - exists 1, 3. split; [simpl; lia|]. split; [lia|]. vm_compute. reflexivity.
Qed.
Print Assumptions C67_overflow_refuted.
