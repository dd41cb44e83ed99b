(** P_FloatPamsil.v -- property C66: the silhouette and PAMSIL in binary64.
    Every theorem is followed by a concrete input which meets its hypotheses. *)
From Coq Require Import ZArith QArith Qabs Lqa Lia.
From Coq.Floats Require Import SpecFloat.
From Verif Require Import Base Num M_Mat M_Util M_Fasterpam M_Pam M_Alternating M_Silhouette M_Pamsil Inst Hoare Spec SpecFacts Laws
  FloatFacts FloatRound PamShape PamExact PamFacts SilFacts PamsilFacts FloatSil FloatFmt FloatSwap FloatBuild FloatQuality FloatSilErr FloatPamsil
  ChooseFacts AltFacts Ex P_Fasterpam P_Pam P_Silhouette P_Pamsil P_Float P_Bounded P_Rounding P_FloatOpt P_FloatBuild.
Open Scope nat_scope.

(** every entry is 0 or between 2^-900 and 2^970 (about 10^-271 and 10^292) *)
Definition normal_range {Nt} `{OrdLaws Nt} (n : nat) (D : nat -> nat -> Nt) : Prop :=
  forall x y, x < n -> y < n -> ((vals D x y == 0)%Q \/ (2 ^ (-900) <= vals D x y)%Q) /\ (vals D x y <= 2 ^ 970)%Q.
(** the error made by rounding in the silhouette of one object, and in the mean *)
Definition object_rounding (n : nat) : Q := ((4 * inject_Z (Z.of_nat n) + 5) * 2 ^ (-52))%Q.
Definition mean_rounding (n : nat) : Q := (inject_Z (Z.of_nat n) * 2 ^ (-48))%Q.

Lemma close_off_by e x y : close e x y -> off_by e x y.
Proof. intros [h1 h2]. apply Qabs_Qle_condition. lra. Qed.

Section Range.
  Context {Nt : Type} `{HO : OrdLaws Nt}.
  Variables (n : nat) (D : nat -> nat -> Nt).
  Hypothesis HR : normal_range n D.
  Lemma range_big : forall x y, (x < n)%nat -> (y < n)%nat -> (vals D x y <= 2 ^ big_g)%Q.
  Proof. intros x y hx hy. apply (HR x y hx hy). Qed.
  Lemma range_tiny : forall x y, (x < n)%nat -> (y < n)%nat -> not_tiny (vals D x y).
  Proof. intros x y hx hy. apply (HR x y hx hy). Qed.
End Range.

(** C66.  The silhouette of every object and the average agree with the definition up to a few rounding
    errors per object, for labels 0 .. K-1. *)
Theorem C66_silhouette {Nt : Type} `{HO : OrdLaws Nt} `{HF : FromN Nt f64} (M : Mat Nt) n D assi K samples :
  nonneg_matrix M n D -> exact_from n D -> normal_range n D -> length assi = n -> (N.of_nat n <= 4294967295)%N ->
  2 <= K -> dense K assi ->
  exists (value : f64) vec, silhouette M assi samples = Ok (value, vec) /\
    finite_in (-1) 1 value /\ off_by (mean_rounding n) (sil_mean (vals D) assi) value /\
    (samples = true -> length vec = n /\
       forall i, i < n -> finite_in (-1) 1 (nth i vec lzero) /\
         off_by (object_rounding n) (sil_object (vals D) assi i) (nth i vec lzero)).
Proof.
  intros hd he hr hl hn hk hde. destruct (dense_two K assi hk hde) as [hw h1].
  pose proof (silhouette_near hd he (range_big n D hr) (range_tiny n D hr) hn assi samples ltac:(lia) hw) as h.
  apply oks_inv in h as ([value vec] & e & q1 & q2 & q3 & q4). cbn [fst snd] in *. exists value, vec. split; [exact e|].
  assert (hc : forall i, i < length assi -> (code_sil D assi i (nth i assi 0%nat) == sil_object (vals D) assi i)%Q).
  { intros i hi. apply (code_sil_dense D (K := K)); auto. apply nth_error_nth'. auto. }
  split; [exact q1|]. split.
  - apply close_off_by. eapply close_ext; [reflexivity| |exact q2].
    unfold code_mean, sil_mean. rewrite (sumQ_ext _ (sil_object (vals D) assi)); [reflexivity|].
    intros i hi. apply in_seq in hi. apply hc. lia.
  - intros ->. split; [lia|]. intros i hi. destruct (q4 i ltac:(lia)) as [q5 q6]. split; [exact q5|].
    apply close_off_by. eapply close_ext; [reflexivity|apply hc; lia|exact q6].
Qed.
Print Assumptions C66_silhouette.
Lemma f1_range : normal_range 5 (fentries rows_f1).
Proof.
  intros x y hx hy. do 5 (destruct x; [do 5 (destruct y; [split; [first [left; vm_compute; reflexivity|right; vm_compute; discriminate]|vm_compute; discriminate]|]); lia|]). lia.
Qed.
Lemma d6_range : normal_range 6 d6.
Proof.
  intros x y hx hy. do 6 (destruct x; [do 6 (destruct y; [split; [first [left; vm_compute; reflexivity|right; vm_compute; discriminate]|vm_compute; discriminate]|]); lia|]). lia.
Qed.
Lemma dense6 : dense 3 [0; 2; 0; 1; 1; 2].
Proof. intros c. simpl. lia. Qed.
Definition C66_case_silhouette := C66_silhouette _ 5 _ [0; 0; 0; 1; 1] 2 true (diss_nonneg _ _ _ f1_diss)
  (f64_exact_from _ _ _ (diss_nonneg _ _ _ f1_diss)) f1_range eq_refl ltac:(vm_compute; discriminate) (le_n 2) dense5.
Definition C66_case_silhouette_integers := C66_silhouette _ 6 _ [0; 2; 0; 1; 1; 2] 3 true (diss_nonneg _ _ _ m6_diss)
  d6_exact d6_range eq_refl ltac:(vm_compute; discriminate) le23 dense6.

(** par_silhouette computes the same number, with any number of threads. *)
Theorem C66_par_silhouette {Nt : Type} `{HO : OrdLaws Nt} `{HF : FromN Nt f64} (M : Mat Nt) n D assi K :
  nonneg_matrix M n D -> exact_from n D -> normal_range n D -> length assi = n -> (N.of_nat n <= 4294967295)%N ->
  2 <= K -> dense K assi ->
  exists value : f64, par_silhouette M assi = Ok value /\
    finite_in (-1) 1 value /\ off_by (mean_rounding n) (sil_mean (vals D) assi) value.
Proof.
  intros hd he hr hl hn hk hde.
  destruct (C66_silhouette M n D assi K false hd he hr hl hn hk hde) as (value & vec & e & h1 & h2 & _).
  exists value. split; [|auto]. destruct (dense_two K assi hk hde) as [hw _].
  rewrite (par_silhouette_eq M assi false hw), e. reflexivity.
Qed.
Print Assumptions C66_par_silhouette.
Definition C66_case_par_silhouette := C66_par_silhouette _ 6 _ [0; 2; 0; 1; 1; 2] 3 (diss_nonneg _ _ _ m6_diss)
  d6_exact d6_range eq_refl ltac:(vm_compute; discriminate) le23 dense6.

(** The lower limit is needed: with entries among the smallest numbers (multiples of 2^-1074) the
    silhouette may be off by one half for an object. *)
Definition tiny (z : Z) : f64 := match z with Zpos p => S754_finite false p (-1074) | _ => S754_zero false end.
Definition rows_tiny : list (list f64) := Eval vm_compute in map (map tiny)
  [[0; 1; 0; 1]; [1; 0; 1; 1]; [0; 1; 0; 1]; [1; 1; 1; 0]]%Z.
Theorem C66_tiny_refuted : exists (M : Mat f64) D assi value vec,
  diss_matrix M 4 D /\ symmetric 4 (vals D) /\ dense 2 assi /\ silhouette M assi true = Ok (value, vec) /\
  (f64_val (nth 0 vec lzero) == 1)%Q /\ (sil_object (vals D) assi 0 == 1 # 2)%Q.
Proof.
  exists (mat_of_rows rows_tiny), (fentries rows_tiny), [0; 0; 0; 1]. do 2 eexists.
  split; [apply frows_diss; [lia|reflexivity]|].
  split; [intros x y hx hy; do 4 (destruct x; [do 4 (destruct y; [reflexivity|]); lia|]); lia|].
  split; [intros c; simpl; lia|]. split; [vm_compute; reflexivity|]. split; vm_compute; reflexivity.
Qed.
Print Assumptions C66_tiny_refuted.

(** pamsil_swap: the assignment is right, the value is nearly the silhouette of the returned clustering,
    and not below that of the initial one (up to rounding); fewer than n^k swaps are made; when it stops
    before the iteration limit, or with a limit of n^k, no swap nearly improves. *)
Theorem C66_pamsil_swap {Nt : Type} `{HO : OrdLaws Nt} `{HF : FromN Nt f64} (M : Mat Nt) n D med maxiter
    (r : pam_result f64) assi0 :
  diss_matrix M n D -> exact_from n D -> normal_range n D -> sizes n (length med) -> 2 <= length med ->
  medoids n (length med) med -> pamsil_swap M med maxiter = Ok r -> assigned_first (vals D) n med assi0 ->
  (forall o, o < n -> nearest (vals D) o (r_med r) (nth o (r_assi r) 0)) /\
  (sil_mean (vals D) assi0 <= f64_val (r_loss r) + mean_rounding n)%Q /\
  (NoDup (r_med r) -> assigned_first (vals D) n (r_med r) (r_assi r) /\
                      off_by (mean_rounding n) (sil_mean (vals D) (r_assi r)) (r_loss r)) /\
  r_swaps r < n ^ length med /\
  (r_iter r < maxiter \/ n ^ length med <= maxiter ->
   (0 <= f64_val (r_loss r))%Q /\
   (forall b j loss (s : f64) assi, b < length med -> j < n -> ~ In j (r_med r) ->
      assign_nearest (Lt := f64) M (swap (r_med r) b j) = Ok (loss, assi) -> silhouette M assi false = Ok (s, []) ->
      (f64_val s <= f64_val (r_loss r))%Q) /\
   (NoDup (r_med r) ->
      clustering_sil_optimal (vals D) n (r_med r) (f64_val (r_loss r) + mean_rounding n))).
Proof.
  intros hd he hrange hs hk hmed e ha. pose proof (proj1 hd) as hm. pose proof (proj2 (proj2 hmed)) as hin.
  pose proof (range_big n D hrange) as hb. pose proof (range_tiny n D hrange) as ht.
  destruct (pamsil_swap_wk (Lt := f64) M n D med maxiter hm hs hk hin) as (sil0 & e0 & assi1 & a0 & e1 & e2 & h).
  rewrite e in h. destruct h as (st & assi & loss & hr & q1 & q2 & q3 & q4 & q5 & q6).
  destruct hr as [[l1 l2 l3 l4] p1 p2 p3 p4 p5 p6 p7]. cbn [pl_med pl_sil] in *.
  pose proof (sv_near hd he hb ht hs hk hmed e0 ha) as [c1 c2].
  change (avg_err n) with (mean_rounding n) in *.
  pose proof (ordf_f64 hd he hb ht hs hk) as hf.
  assert (hsr : sizes n (length (r_med r))) by (rewrite q2, l1; auto).
  assert (hkr : 2 <= length (r_med r)) by (rewrite q2, l1; auto).
  assert (hinr : inr n (r_med r)) by (rewrite q2; auto).
  destruct (emb_vals hd) as [hemb _].
  assert (N : NoDup (r_med r) -> assigned_first (vals D) n (r_med r) (r_assi r) /\
    off_by (mean_rounding n) (sil_mean (vals D) (r_assi r)) (r_loss r)).
  { intros hnd. assert (hmr : medoids n (length (r_med r)) (r_med r)) by (split; auto).
    pose proof (assign_first (Lt := f64) hd hsr hmr) as h. rewrite q5 in h. cbn [oks snd] in h.
    split; [auto|]. apply close_off_by.
    apply (sv_near hd he hb ht hsr hkr hmr) with (2 := h). rewrite q2, q1.
    destruct (Nat.eq_dec (pl_swaps st) 0) as [h0|h0]; [|apply p3; lia].
    destruct (p2 h0) as [-> ->]. auto. }
  pose proof (above_bound_lt M (k := length med) f64_val eq_refl hin e0) as hab. specialize (p6 _ hf).
  split; [|split; [|split; [exact N|split]]].
  - intros o ho. pose proof (assign_nearest_ok (Lt := f64) hm hsr hinr) as h. rewrite q5 in h.
    destruct h as (_ & h & _). cbn [snd] in h. apply (h o ho). auto.
  - rewrite q1. destruct (Nat.eq_dec (pl_swaps st) 0) as [h0|h0].
    + destruct (p2 h0) as [_ ->]. lra.
    + destruct (p4 _ hf ltac:(lia)) as [h1 _]. lra.
  - lia.
  - intros hit. destruct p5 as [(p5 & hopt & hpos)|(p5 & p5')]; [|exfalso; lia].
    assert (A : forall b j s, b < length med -> j < n -> ~ In j (r_med r) -> sv M (swap (r_med r) b j) = Ok s ->
      (f64_val s <= f64_val (r_loss r))%Q).
    { intros b j s hb' hj hno es. rewrite q2 in *. rewrite q1. rewrite swap_set_nth in es by lia.
      exact (hopt b j s hb' hj hno es f64_val hf). }
    assert (B : forall b j, b < length med -> j < n -> sizes n (length (swap (r_med r) b j)) /\
      (forall m, In m (swap (r_med r) b j) -> m < n) /\ length (swap (r_med r) b j) = length med).
    { intros b j hb' hj. rewrite q2. destruct (swap_in n (pl_med st) b j l2 hj ltac:(lia)) as [i1 i2].
      rewrite i2, l1. auto. }
    split; [|split].
    + rewrite q1. specialize (hpos _ hf). rewrite zero_val in hpos. exact hpos.
    + intros b j loss' s assi' hb' hj hno ea es. apply A with b j; auto.
      destruct (B b j hb' hj) as (b1 & b2 & b3). apply (sv_sil M n D _ loss' assi' s hm); auto.
      pose proof (assign_nearest_ok (Lt := f64) hm b1 b2) as h. rewrite ea in h. apply h.
    + intros hnd b j assi' hb' hj hno haf. rewrite q2, l1 in hb'. destruct (B b j hb' hj) as (b1 & b2 & b3).
      assert (hmr : medoids n (length (r_med r)) (r_med r)) by (split; [auto|split; [auto|rewrite q2; auto]]).
      pose proof (swap_distinct n (r_med r) b j hmr hj ltac:(rewrite q2, l1; auto) hno) as hsd.
      destruct (sv_ok (Lt := f64) hm b1 eq_refl b2) as (_ & _ & s & _ & _ & e3 & _).
      pose proof (sv_near hd he hb ht b1 ltac:(lia) hsd e3 haf) as [c3 c4].
      change (avg_err n) with (mean_rounding n) in *. specialize (A b j s hb' hj hno e3).
      lra.
Qed.
Print Assumptions C66_pamsil_swap.
Definition assi_f1 : list nat := Eval vm_compute in
  match assign_nearest (Lt := f64) (mat_of_rows rows_f1) [0; 1] with Ok (_, a) => a | Panic _ => [] end.
Lemma assi_f1_ok : assigned_first (vals (fentries rows_f1)) 5 [0; 1] assi_f1.
Proof.
  pose proof (assign_first (Lt := f64) f1_diss (med := [0; 1]) s52 k52) as q.
  apply oks_inv in q as ([l a] & e & h). cbn [snd] in h. vm_compute in e. injection e as _ <-. exact h.
Qed.
Definition run_f1 : pam_result f64 := Eval vm_compute in
  match pamsil_swap (Lt := f64) (mat_of_rows rows_f1) [0; 1] 100 with Ok r => r | Panic _ => mkPR fnan [] 0 0 [] end.
Lemma run_f1_ok : pamsil_swap (Lt := f64) (mat_of_rows rows_f1) [0; 1] 100 = Ok run_f1.
Proof. vm_compute. reflexivity. Qed.
Definition C66_case_pamsil_swap := C66_pamsil_swap _ 5 _ [0; 1] 100 run_f1 assi_f1 f1_diss
  (f64_exact_from _ _ _ (diss_nonneg _ _ _ f1_diss)) f1_range s52 (le_n 2) k52 run_f1_ok assi_f1_ok.

(** It returns, unless the initial silhouette is negative up to rounding and no swap has a clearly
    positive one. *)
Theorem C66_pamsil_swap_returns {Nt : Type} `{HO : OrdLaws Nt} `{HF : FromN Nt f64} (M : Mat Nt) n D med maxiter assi0 :
  diss_matrix M n D -> exact_from n D -> normal_range n D -> sizes n (length med) -> 2 <= length med ->
  medoids n (length med) med -> assigned_first (vals D) n med assi0 ->
  (exists r : pam_result f64, pamsil_swap M med maxiter = Ok r) \/
  (pamsil_swap (Lt := f64) M med maxiter = Panic P_index /\ 0 < maxiter /\
   (sil_mean (vals D) assi0 < mean_rounding n)%Q /\ clustering_sil_optimal (vals D) n med (mean_rounding n)).
Proof.
  intros hd he hrange hs hk hmed ha. pose proof (proj1 hd) as hm. pose proof (proj2 (proj2 hmed)) as hin.
  pose proof (range_big n D hrange) as hb. pose proof (range_tiny n D hrange) as ht.
  destruct (pamsil_swap_wk (Lt := f64) M n D med maxiter hm hs hk hin) as (sil0 & e0 & assi1 & a0 & e1 & e2 & _).
  destruct (pamsil_swap M med maxiter) as [r|p] eqn:e; [left; eauto|]. right. symmetry in e2.
  apply (optimize_loop hm hs maxiter p hk eq_refl e1 hin a0 (val_sv M (k := length med) eq_refl hin e0)) in e2.
  pose proof (ordf_f64 hd he hb ht hs hk) as hf.
  apply (loop_panic hm hs (f := f64_val)) in e2; [|auto|constructor; auto; apply (val_sv M (k := length med) eq_refl hin e0)].
  cbn [pl_sil pl_med] in e2. destruct e2 as (-> & q1 & q2 & q3). rewrite zero_val in q2. split; [auto|]. split; [auto|].
  change (mean_rounding n) with (avg_err n).
  split; [destruct (sv_near hd he hb ht hs hk hmed e0 ha) as [c1 c2]; lra|].
  intros b j assi hb' hj hno haf.
  pose proof (swap_distinct n med b j hmed hj hb' hno) as hsd. destruct (swap_in n med b j hin hj hb') as [i1 i2].
  assert (hsr : sizes n (length (swap med b j))) by (rewrite i2; auto).
  destruct (sv_ok (Lt := f64) hm hsr eq_refl i1) as (_ & _ & s & _ & _ & e3 & _).
  destruct (sv_near hd he hb ht hsr ltac:(lia) hsd e3 haf) as [c1 c2]. rewrite swap_set_nth in e3 by auto.
  pose proof (q3 b j s hb' hj hno e3 f64_val hf) as h. rewrite zero_val in h. lra.
Qed.
Print Assumptions C66_pamsil_swap_returns.
Definition C66_case_returns := C66_pamsil_swap_returns _ 5 _ [0; 1] 100 assi_f1 f1_diss
  (f64_exact_from _ _ _ (diss_nonneg _ _ _ f1_diss)) f1_range s52 (le_n 2) k52 assi_f1_ok.
Definition C66_case_returns_integers := C66_pamsil_swap_returns m6 6 d6 [0; 1; 3] 10 assi63 m6_diss d6_exact d6_range s63 le23 k63 assi63_ok.

(** pamsil: it returns; BUILD is greedy up to rounding; the value is 0 without a swap, else nearly the
    silhouette of the returned clustering; on early termination no swap is better. *)
Theorem C66_pamsil {Nt : Type} `{HO : OrdLaws Nt} `{HF : FromN Nt f64} (M : Mat Nt) n D k maxiter mx :
  diss_matrix M n D -> exact_from n D -> normal_range n D -> at_most n D mx -> sizes n k -> 2 <= k ->
  lfrom (nzero : Nt) = S754_zero false ->
  exists (r : pam_result f64) meds loss, pamsil M k maxiter = Ok r /\
    length meds = k /\ (forall m, In m meds -> m < n) /\ nearly_greedy (vals D) n meds (rounding n mx) /\
    (NoDup meds \/ (tdev (vals D) n meds == 0)%Q) /\
    length (r_med r) = k /\ (forall m, In m (r_med r) -> m < n) /\
    assign_nearest M (r_med r) = Ok (loss, r_assi r) /\
    (forall o, o < n -> nearest (vals D) o (r_med r) (nth o (r_assi r) 0)) /\
    (r_swaps r = 0 -> r_med r = meds /\ r_loss r = S754_zero false) /\
    (0 < r_swaps r -> (0 < f64_val (r_loss r))%Q /\
       (NoDup (r_med r) -> off_by (mean_rounding n) (sil_mean (vals D) (r_assi r)) (r_loss r))) /\
    r_iter r <= maxiter /\ r_swaps r <= n ^ k /\
    (r_iter r < maxiter \/ n ^ k < maxiter -> NoDup (r_med r) ->
     clustering_sil_optimal (vals D) n (r_med r) (f64_val (r_loss r) + mean_rounding n)).
Proof.
  intros hd he hrange [hbig hmx] hs hk hz. pose proof (proj1 hd) as hm.
  assert (hn : 1 <= n) by (destruct hs; lia). assert (hk1 : 1 <= k) by lia.
  assert (hn32 : (N.of_nat n <= 4294967295)%N) by apply hs.
  pose proof (range_big n D hrange) as hb. pose proof (range_tiny n D hrange) as ht.
  pose proof (pamsil_build_near hd he hmx hbig hn hn32 hz hk1) as h. apply oks_inv in h as (meds & eb & b1 & b2 & b3 & b4).
  assert (ez : silhouette (Lt := f64) M (repeat 0 n) false = Ok (lzero, [])).
  { change (@nil f64) with (repeat (lzero : f64) (if false then length (repeat 0 n) else 0)). apply silhouette_one.
    - apply width_one. split; [destruct n; [lia|discriminate]|]. intros a h. apply repeat_spec in h. auto.
    - apply hm.
    - pose proof (sil_buf_oks (Lt := f64) hm (repeat 0 n) (i := 0)) as h. rewrite repeat_length in h.
      specialize (h (le_n n) hn). apply oks_inv in h as (b & -> & _). eauto. }
  assert (ha : assi_ok n k (repeat 0 n)).
  { split; [apply repeat_length|]. intros o ho. rewrite nth_repeat. lia. }
  pose proof (ordf_f64 hd he hb ht hs hk) as hf.
  assert (e : pamsil (Lt := f64) M k maxiter = pamsil_optimize M meds (repeat 0 n) maxiter).
  { unfold pamsil. rewrite (check_input_ok hm hs). cbn [bind]. rewrite eb. cbn [bind]. rewrite (proj1 hm). auto. }
  pose proof (optimize_wk hm hs maxiter hk b1 b2 ha (val_zero M n k) ez) as h.
  destruct (pamsil_optimize M meds (repeat 0 n) maxiter) as [r|p] eqn:eo.
  2: { exfalso. apply (optimize_loop hm hs maxiter p hk b1 ez b2 ha (val_zero M n k)) in eo.
       apply (loop_panic hm hs (f := f64_val)) in eo; [|auto|constructor; auto; apply val_zero].
       cbn [pl_sil] in eo. destruct eo as (_ & _ & q & _). rewrite zero_val in q. lra. }
  destruct h as (st & assi & loss & hr & q1 & q2 & q3 & q4 & q5 & q6).
  destruct hr as [[l1 l2 l3 l4] p1 p2 p3 p4 p5 p6 p7]. cbn [pl_med pl_sil] in *.
  specialize (p6 _ hf). pose proof (above_bound M n k f64_val (f64_val lzero)) as hab.
  destruct q6 as [q6 q7]. exists r, meds, loss. rewrite q3, q4.
  assert (hsr : sizes n (length (r_med r))) by (rewrite q2, l1; auto).
  assert (hkr : 2 <= length (r_med r)) by (rewrite q2, l1; auto).
  assert (hinr : inr n (r_med r)) by (rewrite q2; auto).
  destruct (emb_vals hd) as [hemb _].
  assert (N : 0 < pl_swaps st -> NoDup (r_med r) -> off_by (mean_rounding n) (sil_mean (vals D) (r_assi r)) (r_loss r)).
  { intros h0 hnd. assert (hmr : medoids n (length (r_med r)) (r_med r)) by (split; auto).
    pose proof (assign_first (Lt := f64) hd hsr hmr) as h. rewrite q5 in h. cbn [oks snd] in h.
    apply close_off_by. apply (sv_near hd he hb ht hsr hkr hmr) with (2 := h). rewrite q2, q1. auto. }
  split; [auto|]. split; [auto|]. split; [auto|]. split.
  { intros i y hi hy. specialize (b3 i y hi hy). pose proof (err_rounding n mx) as er.
    pose proof (err_pos (Lt := f64) hd hmx hn). lra. }
  split; [auto|]. split; [congruence|]. split; [auto|]. split; [auto|]. split.
  { intros o ho. pose proof (assign_nearest_ok (Lt := f64) hm hsr hinr) as h. rewrite q5 in h.
    destruct h as (_ & h & _). cbn [snd] in h. apply (h o ho). auto. }
  split; [intros h; rewrite q1, q2; auto|]. split.
  { intros h. split; [|auto]. destruct (p4 _ hf h) as [_ h']. rewrite zero_val in h'. rewrite q1. auto. }
  split; [auto|]. split; [lia|].
  intros hit hnd b j assi' hb' hj hno haf. rewrite q2, l1 in hb'.
  destruct p5 as [(p5 & hopt & hpos)|(p5 & p5')]; [|exfalso; lia].
  destruct (swap_in n (r_med r) b j hinr hj ltac:(rewrite q2, l1; auto)) as [i1 i2].
  assert (hsw : sizes n (length (swap (r_med r) b j))) by (rewrite i2; auto).
  assert (hmr : medoids n (length (r_med r)) (r_med r)) by (split; [auto|split; auto]).
  pose proof (swap_distinct n (r_med r) b j hmr hj ltac:(rewrite q2, l1; auto) hno) as hsd.
  destruct (sv_ok (Lt := f64) hm hsw eq_refl i1) as (_ & _ & s & _ & _ & e3 & _).
  destruct (sv_near hd he hb ht hsw ltac:(lia) hsd e3 haf) as [c3 c4].
  change (avg_err n) with (mean_rounding n) in *.
  rewrite q2 in e3, hno. rewrite swap_set_nth in e3 by lia.
  pose proof (hopt b j s hb' hj hno e3 f64_val hf) as h. rewrite q1. lra.
Qed.
Print Assumptions C66_pamsil.
Definition C66_case_pamsil := C66_pamsil _ 5 _ 3 100 1 f1_diss (f64_exact_from _ _ _ (diss_nonneg _ _ _ f1_diss)) f1_range
  f1_at_most s53 le23 eq_refl.
Definition C66_case_pamsil_integers := C66_pamsil _ 6 _ 3 10 20 m6_diss d6_exact d6_range d6_at_most s63 le23 eq_refl.
