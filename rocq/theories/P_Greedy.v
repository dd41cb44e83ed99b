(** P_Greedy.v -- property C86: how good the medoids of BUILD are.
    Every theorem is followed by a concrete input which meets its hypotheses. *)
From Coq Require Import ZArith QArith Qabs Lqa Lia Permutation.
From Coq.Floats Require Import SpecFloat.
From Verif Require Import Base Num M_Mat M_Util M_Fasterpam M_Pam M_Alternating M_Msc M_Pammedsil M_Pamsil Inst Hoare
  Spec SpecFacts Laws FloatFacts FloatRound PamShape PamExact PamFacts PamMain MscMain FloatMain FloatSil FloatLoss FloatFmt FloatSwap FloatPam FloatQuality
  Approx TermFloat ChooseFacts AltFacts FloatBuild PamsilFacts Greedy Ex P_Fasterpam P_Pam P_Pamsil P_MscBuild P_Float P_Bounded P_Rounding
  P_Approx P_Term P_FloatOpt P_FloatBuild.
Open Scope nat_scope.

Local Notation Qn x := (inject_Z (Z.of_nat x)).

(** [x] is at most the mean of the total deviations of any one medoid and of any [k] or fewer medoids: of what these
    save over the best single medoid, at least half is saved.  [e] is an allowance for rounding. *)
Definition saves_half (v : diss) (n k : nat) (e x : Q) : Prop :=
  forall y opt, y < n -> 1 <= length opt <= k -> (forall m, In m opt -> m < n) ->
    (2 * x <= tdev v n [y] + tdev v n opt + e)%Q.

(** the excess over any [q] medoids (of which there may be fewer or more than [k]) is at most (1 - 1/q)^(k-1) times
    that of the single medoid [f] *)
Definition excess_shrinks (v : diss) (n k f : nat) (e x : Q) : Prop :=
  forall opt, let q := length opt in 1 <= q -> (forall m, In m opt -> m < n) ->
    (Qn (q ^ (k - 1)) * (x - tdev v n opt) <=
     Qn ((q - 1) ^ (k - 1)) * (tdev v n [f] - tdev v n opt) + Qn ((k - 1) * q ^ (k - 1)) * e)%Q.

Lemma halves v n k e meds : (0 <= e)%Q -> dissimilarity n v -> 1 <= length meds <= k -> nearly_greedy v n meds e ->
  length meds = k \/ (tdev v n meds == 0)%Q -> saves_half v n k (Qn (2 * k) * e) (tdev v n meds).
Proof.
  intros he hd hl hg hz y opt hy ho hin.
  assert (hne : meds <> []) by (destruct meds; [simpl in hl; lia|discriminate]).
  assert (hno : opt <> []) by (destruct opt; [simpl in ho; lia|discriminate]).
  destruct hz as [hz|hz].
  - rewrite <- hz in *. refine (greedy_half he hd hne hno _ hin _ hy); [lia|]. intros i z hi hz' _. apply hg; auto.
  - rewrite hz. assert (0 <= tdev v n [y])%Q by (apply SpecFacts.tdev_nonneg; [exact hd|intros m [<-|[]]; exact hy]).
    assert (0 <= tdev v n opt)%Q by (apply SpecFacts.tdev_nonneg; auto).
    assert (0 <= Qn (2 * k) * e)%Q by (apply Qmult_le_0_compat; [apply Qn_nonneg|exact he]). lra.
Qed.

Lemma shrinks v n k e meds : (0 <= e)%Q -> dissimilarity n v -> 1 <= length meds <= k -> (forall m, In m meds -> m < n) ->
  nearly_greedy v n meds e ->
  length meds = k \/ (tdev v n meds == 0)%Q -> excess_shrinks v n k (nth 0 meds 0) e (tdev v n meds).
Proof.
  intros he hd hl hin' hg hz opt q hq hin.
  assert (hno : opt <> []) by (destruct opt; [simpl in *; lia|discriminate]).
  assert (hf : firstn 1 meds = [nth 0 meds 0]) by (destruct meds; [simpl in hl; lia|reflexivity]).
  destruct hz as [hz|hz].
  - pose proof (@greedy_power v n opt hno e he meds (fun i y _ h2 h3 => hg i y h2 (hin y h3)) (k - 1) ltac:(lia)) as h.
    rewrite firstn_all2 in h by lia. rewrite hf in h. exact h.
  - rewrite hz. set (a := tdev v n [nth 0 meds 0]). set (t := tdev v n opt).
    assert (h0 : (0 <= a)%Q).
    { apply SpecFacts.tdev_nonneg; [exact hd|]. intros m [<-|[]]. apply hin'. destruct meds; [simpl in hl; lia|left; reflexivity]. }
    assert (h1 : (0 <= t)%Q) by (apply SpecFacts.tdev_nonneg; auto).
    assert (h2 : (0 <= Qn ((k - 1) * q ^ (k - 1)) * e)%Q) by (apply Qmult_le_0_compat; [apply Qn_nonneg|exact he]).
    assert (h3 : (0 <= Qn ((q - 1) ^ (k - 1)) * a)%Q) by (apply Qmult_le_0_compat; [apply Qn_nonneg|exact h0]).
    assert (h4 : (Qn ((q - 1) ^ (k - 1)) * t <= Qn (q ^ (k - 1)) * t)%Q).
    { apply Qmult_le_compat_r; [|exact h1]. apply Qn_le. apply Nat.pow_le_mono_l. lia. }
    lra.
Qed.

Lemma greedy_nearly v n meds : greedy v n meds -> nearly_greedy v n meds 0.
Proof. intros h i y hi hy. specialize (h i y hi hy). lra. Qed.

(** C86.  BUILD, whatever the dissimilarities: the first medoid is the best single one, and with the others it saves at
    least half of what any k medoids would save. *)
Theorem C86_build {Nt Lt : Type} `{HLL : LossLaws Nt Lt} (M : Mat Nt) n D k :
  diss_matrix M n D -> sizes n k ->
  exists (loss : Lt) assi meds, pam_build M k = Ok (loss, assi, meds) /\
    (forall y, y < n -> (tdev (vals D) n [nth 0 meds 0%nat] <= tdev (vals D) n [y])%Q) /\
    saves_half (vals D) n k 0 (vL loss) /\ excess_shrinks (vals D) n k (nth 0 meds 0) 0 (vL loss).
Proof.
  intros hd hs. pose proof (proj2 (proj1 (emb_vals hd))) as hdv.
  destruct (C16_pam_build (Lt := Lt) M n D k hd hs) as (l & a & ms & e & h1 & h2 & h3 & h4 & h5 & _ & _ & _ & h6).
  exists l, a, ms. split; [exact e|].
  assert (hz : length ms = k \/ (tdev (vals D) n ms == 0)%Q).
  { destruct (Nat.eq_dec (length ms) k) as [?|hne]; [auto|]. right. rewrite <- h5. apply h6. lia. }
  split.
  { intros y hy. specialize (h4 0 y ltac:(lia) hy). destruct ms; [simpl in h1; lia|exact h4]. }
  pose proof (halves (vals D) n k 0 ms ltac:(lra) hdv h1 (greedy_nearly _ _ _ h4) hz) as g1.
  pose proof (shrinks (vals D) n k 0 ms ltac:(lra) hdv h1 h3 (greedy_nearly _ _ _ h4) hz) as g2.
  split.
  - intros y opt hy ho hin. specialize (g1 y opt hy ho hin). rewrite h5. lra.
  - intros opt q hq hin. specialize (g2 opt hq hin). fold q in g2. rewrite h5. exact g2.
Qed.
Print Assumptions C86_build.
Definition C86_case := C86_build (Lt := Z) m6 6 d6 3 m6_diss s63.

(** PAM is no worse. *)
Theorem C86_pam {Nt Lt : Type} `{HLL : LossLaws Nt Lt} (M : Mat Nt) n D k maxiter :
  diss_matrix M n D -> sizes n k -> 2 <= k ->
  exists (r : pam_result Lt) (loss : Lt) assi meds, pam M k maxiter = Ok r /\ pam_build M k = Ok (loss, assi, meds) /\
    (2 <= length meds \/ symmetric n (vals D) ->
      saves_half (vals D) n k 0 (vL (r_loss r)) /\ excess_shrinks (vals D) n k (nth 0 meds 0) 0 (vL (r_loss r))).
Proof.
  intros hd hs hk.
  destruct (C17_pam_is_build_swap (Lt := Lt) M n D k maxiter hd hs) as (r & r' & l & a & ms & e & eb & _ & _ & _ & _ & _ & _ & h).
  destruct (C86_build (Lt := Lt) M n D k hd hs) as (l' & a' & ms' & eb' & _ & g1 & g2).
  rewrite eb in eb'. injection eb' as <- <- <-. exists r, l, a, ms. split; [exact e|]. split; [exact eb|]. intros hc. specialize (h hc).
  split.
  - intros y opt hy ho hin. specialize (g1 y opt hy ho hin). lra.
  - intros opt q hq hin. specialize (g2 opt hq hin). cbv zeta in g2. fold q in g2. eapply Qle_trans; [|exact g2].
    rewrite !(Qmult_comm (Qn (q ^ (k - 1)))). apply Qmult_le_compat_r; [lra|apply Qn_nonneg].
Qed.
Print Assumptions C86_pam.
Definition C86_pam_case := C86_pam (Lt := Z) m6 6 d6 3 10 m6_diss s63 le23.

(** The initial medoids of PAMSIL, and of PAMMEDSIL compared with medoids other than object 0, which it does not
    consider after the first medoid (C32). *)
Theorem C86_pamsil_build {Nt Lt : Type} `{HLL : LossLaws Nt Lt} (M : Mat Nt) n D k :
  diss_matrix M n D -> 1 <= n -> 1 <= k ->
  exists meds, pamsil_build_initialize (Lt := Lt) M k = Ok meds /\ length meds = k /\
    saves_half (vals D) n k 0 (tdev (vals D) n meds).
Proof.
  intros hd hn hk. pose proof (pamsil_build_ok (Lt := Lt) hd hn hk) as h. apply oks_inv in h as (ms & e & h1 & _ & h3 & _).
  exists ms. split; [exact e|]. split; [exact h1|].
  pose proof (halves (vals D) n k 0 ms ltac:(lra) (proj2 (proj1 (emb_vals hd))) ltac:(lia) (greedy_nearly _ _ _ h3) (or_introl h1)) as g.
  intros y opt hy ho hin. specialize (g y opt hy ho hin). lra.
Qed.
Print Assumptions C86_pamsil_build.
Definition C86_pamsil_case := C86_pamsil_build (Lt := Z) m6 6 d6 3 m6_diss
  (le_S _ _ (le_S _ _ (le_S _ _ (le_S _ _ (le_S _ _ (le_n 1)))))) (le_S _ _ (le_S _ _ (le_n 1))).

Theorem C86_pammedsil_build {Nt Lt : Type} `{HLL : LossLaws Nt Lt} `{HAL : !AddLaws Nt} `{HDL : !DivLaws Nt Lt}
    (M : Mat Nt) n D k maxiter :
  diss_matrix M n D -> sizes n k ->
  exists meds (r r' : pam_result Lt),
    pammedsil M k maxiter = Ok r /\ pammedsil_swap M meds maxiter = Ok r' /\ same_but_value r r' /\
    (length meds = k -> forall y opt, y < n -> 1 <= length opt <= k -> (forall m, In m opt -> 0 < m < n) ->
      (2 * tdev (vals D) n meds <= tdev (vals D) n [y] + tdev (vals D) n opt)%Q).
Proof.
  intros hd hs. destruct (C32_build_greedy_but_0 (Lt := Lt) M n D k maxiter hd hs) as (ms & r & r' & e & e' & h1 & h2 & _ & h4 & _).
  exists ms, r, r'. split; [exact e|]. split; [exact e'|]. split; [exact h1|]. intros hl y opt hy ho hin.
  assert (hne : ms <> []) by (destruct ms; [simpl in *; lia|discriminate]).
  assert (hno : opt <> []) by (destruct opt; [simpl in *; lia|discriminate]).
  assert (h : (2 * tdev (vals D) n ms <= tdev (vals D) n [y] + tdev (vals D) n opt + Qn (2 * length ms) * 0)%Q); [|lra].
  refine (greedy_half (Qle_refl 0) (proj2 (proj1 (emb_vals hd))) hne hno _ (fun m h => proj2 (hin m h)) _ hy); [lia|].
  intros i z hi hz hc. assert (hg := h4 i z hi hz). assert (i = 0 \/ z <> 0) as hc'; [|specialize (hg hc'); lra].
  destruct hc as [hc|hc]; [auto|]. apply hin in hc. lia.
Qed.
Print Assumptions C86_pammedsil_build.
Definition C86_pammedsil_case := C86_pammedsil_build (Lt := Q) m6 6 d6 3 0 m6_diss s63.

(** In binary64: up to the rounding errors. *)
Theorem C86_binary64 {Nt : Type} `{HO : OrdLaws Nt} `{HF : FromN Nt f64} (M : Mat Nt) n D k maxiter mx :
  diss_matrix M n D -> exact_from n D -> at_most n D mx -> sizes n k -> lfrom (nzero : Nt) = S754_zero false ->
  exists (loss : f64) assi meds (r : pam_result f64), pam_build M k = Ok (loss, assi, meds) /\ pam M k maxiter = Ok r /\
    saves_half (vals D) n k (Qn (2 * k) * rounding n mx) (tdev (vals D) n meds) /\
    saves_half (vals D) n k (Qn (2 * k + 2) * rounding n mx) (f64_val loss) /\
    excess_shrinks (vals D) n k (nth 0 meds 0) (rounding n mx) (tdev (vals D) n meds) /\
    (2 <= length meds -> saves_half (vals D) n k (Qn (2 * k + 6) * rounding n mx) (tdev (vals D) n (r_med r))).
Proof.
  intros hd he hm hs hz.
  assert (hmx : (0 <= mx)%Q).
  { assert (hn : 0 < n) by (destruct hs; lia). eapply Qle_trans; [|exact (proj2 hm 0 0 hn hn)]. apply (proj2 (proj2 (proj2 hd) 0 0 hn hn)). }
  pose proof (rounding_pos n mx hmx) as hr. pose proof (proj2 (proj1 (emb_vals hd))) as hdv.
  destruct (C64_pam M n D k maxiter mx hd he hm hs hz) as (l & a & ms & r & eb & e & h & _).
  destruct (C64_build M n D k mx hd he hm hs) as (l' & a' & ms' & eb' & h1 & h2 & h3 & h4 & h5 & _).
  rewrite eb in eb'. injection eb' as <- <- <-. exists l, a, ms, r. split; [exact eb|]. split; [exact e|].
  pose proof (halves (vals D) n k (rounding n mx) ms hr hdv h1 h4 h3) as g1. split; [exact g1|].
  assert (hadd : forall c, (Qn (2 * k + c) * rounding n mx == Qn (2 * k) * rounding n mx + Qn c * rounding n mx)%Q).
  { intros c. rewrite Nat2Z.inj_add, inject_Z_plus. ring. }
  split; [|split].
  - intros y opt hy ho hin. specialize (g1 y opt hy ho hin). unfold off_by in h5. apply Qabs_Qle_condition in h5.
    rewrite hadd. change (Qn 2) with 2%Q. lra.
  - apply shrinks; auto. apply h2.
  - intros hl y opt hy ho hin. specialize (g1 y opt hy ho hin). destruct (h hl) as [h6 _]. rewrite hadd. change (Qn 6) with 6%Q. lra.
Qed.
Print Assumptions C86_binary64.
Definition C86_case_binary64 := C86_binary64 _ 5 _ 2 10 1 f1_diss (f64_exact_from _ _ _ (diss_nonneg _ _ _ f1_diss)) f1_at_most s52 eq_refl.
Definition C86_case_integers := C86_binary64 _ 6 _ 3 10 20 m6_diss d6_exact d6_at_most s63 eq_refl.

(** ** BUILD alone is not within a constant factor, even on metric data, and not much more than half is saved *)

(** object 0 is the centre; the objects 1 .. m and m+1 .. 2m are two groups without diameter *)
Definition group (m o : nat) : nat := if o =? 0 then 0 else if o <=? m then 1 else 2.
Definition star (m x y : nat) : Z :=
  if group m x =? group m y then 0%Z else if (group m x =? 0) || (group m y =? 0) then 1%Z else 2%Z.
Definition star_mat (m : nat) : Mat Z :=
  mkMat (2 * m + 1) (Ok true) (fun x y => if (x <? 2 * m + 1) && (y <? 2 * m + 1) then Ok (star m x y) else Panic P_index).

Lemma star_diss m : diss_matrix (star_mat m) (2 * m + 1) (star m).
Proof.
  split; [split; [reflexivity|split; [reflexivity|]]|split].
  - intros x y hx hy. cbn [mget star_mat]. apply Nat.ltb_lt in hx, hy. rewrite hx, hy. reflexivity.
  - intros x _. unfold star. rewrite Nat.eqb_refl. reflexivity.
  - intros x y _ _. split; [exact I|]. unfold vals. cbn. unfold star.
    destruct (group m x =? group m y); [|destruct ((group m x =? 0) || (group m y =? 0))]; discriminate.
Qed.
Lemma star_metric m : metric (2 * m + 1) (vals (star m)).
Proof.
  split; [exact (proj2 (proj1 (emb_vals (star_diss m))))|]. unfold vals. cbn. split.
  - intros x y _ _. unfold star. rewrite (Nat.eqb_sym (group m x)), (Bool.orb_comm (group m x =? 0)). reflexivity.
  - intros x y z _ _ _. rewrite <- inject_Z_plus, <- Zle_Qle. unfold star.
    destruct (Nat.eqb_spec (group m x) (group m z)), (Nat.eqb_spec (group m x) (group m y)), (Nat.eqb_spec (group m y) (group m z)),
      (Nat.eqb_spec (group m x) 0), (Nat.eqb_spec (group m y) 0), (Nat.eqb_spec (group m z) 0); cbn [orb]; lia.
Qed.

(** the total deviation is the number of objects in each group times their distance to the nearest medoid *)
Lemma star_tdev m med c1 c2 c3 :
  (mindist (vals (star m)) 0 med == c1)%Q -> (forall o, 1 <= o <= m -> (mindist (vals (star m)) o med == c2)%Q) ->
  (forall o, m < o < 2 * m + 1 -> (mindist (vals (star m)) o med == c3)%Q) ->
  (tdev (vals (star m)) (2 * m + 1) med == c1 + Qn m * c2 + Qn m * c3)%Q.
Proof.
  intros h1 h2 h3. unfold tdev. replace (2 * m + 1) with (1 + (m + m)) by lia. rewrite !seq_app, !sumQ_app.
  cbn [seq]. rewrite (@sumQ_const _ (fun o => mindist (vals (star m)) o med) (seq (0 + 1) m) c2).
  2:{ intros o ho. apply in_seq in ho. apply h2. lia. }
  rewrite (@sumQ_const _ (fun o => mindist (vals (star m)) o med) (seq (0 + 1 + m) m) c3).
  2:{ intros o ho. apply in_seq in ho. apply h3. lia. }
  rewrite !seq_length. cbn [sumQ fold_right]. rewrite h1. ring.
Qed.
Lemma group_0 m : group m 0 = 0. Proof. reflexivity. Qed.
Lemma group_1 m o : 1 <= o <= m -> group m o = 1.
Proof. intros h. unfold group. destruct (Nat.eqb_spec o 0); [lia|]. destruct (Nat.leb_spec o m); lia. Qed.
Lemma group_2 m o : m < o -> group m o = 2.
Proof. intros h. unfold group. destruct (Nat.eqb_spec o 0); [lia|]. destruct (Nat.leb_spec o m); lia. Qed.
Ltac star_val := intros; unfold mindist, vals; cbn [map minQ]; cbn; unfold star;
  repeat first [rewrite group_0 | rewrite group_1 by lia | rewrite group_2 by lia]; try reflexivity.

Lemma star_centre m : (tdev (vals (star m)) (2 * m + 1) [0%nat] == 2 * Qn m)%Q.
Proof. rewrite (star_tdev m [0] 0 1 1); [ring|star_val..]. Qed.
Lemma star_other m x : 1 <= x < 2 * m + 1 -> (tdev (vals (star m)) (2 * m + 1) [x] == 2 * Qn m + 1)%Q.
Proof.
  intros hx. destruct (Nat.le_gt_cases x m).
  - rewrite (star_tdev m [x] 1 0 2); [ring|star_val..].
  - rewrite (star_tdev m [x] 1 2 0); [ring|star_val..].
Qed.
Lemma star_both m x : 1 <= x < 2 * m + 1 -> (tdev (vals (star m)) (2 * m + 1) [0%nat; x] == Qn m)%Q.
Proof.
  intros hx. destruct (Nat.le_gt_cases x m).
  - rewrite (star_tdev m [0; x] 0 0 1); [ring|star_val..].
  - rewrite (star_tdev m [0; x] 0 1 0); [ring|star_val..].
Qed.
Lemma star_best m : 1 <= m -> (tdev (vals (star m)) (2 * m + 1) [1%nat; (m + 1)%nat] == 1)%Q.
Proof. intros hm. rewrite (star_tdev m [1; m + 1] 1 0 0); [ring|star_val..]. Qed.

(** For every m there is a metric on 2m+1 objects on which BUILD chooses two medoids with the total deviation m although
    two others have the total deviation 1.  The bound of C86_build is missed by 1 only. *)
Theorem C86_build_factor_refuted : forall m, 1 <= m -> (N.of_nat (2 * m + 1) <= 4294967295)%N ->
  exists (M : Mat Z) D (loss : Z) assi meds opt, diss_matrix M (2 * m + 1) D /\ metric (2 * m + 1) (vals D) /\
    pam_build M 2 = Ok (loss, assi, meds) /\ loss = Z.of_nat m /\ medoids (2 * m + 1) 2 opt /\
    (tdev (vals D) (2 * m + 1) opt == 1)%Q /\
    (2 * vL loss + 1 == tdev (vals D) (2 * m + 1) [nth 0 meds 0%nat] + tdev (vals D) (2 * m + 1) opt)%Q.
Proof.
  intros m hm hn. assert (hs : sizes (2 * m + 1) 2) by (split; [lia|split; [exact hn|reflexivity]]).
  destruct (C16_pam_build (Lt := Z) _ _ _ 2 (star_diss m) hs) as (l & a & ms & e & h1 & h2 & h3 & h4 & h5 & _ & _ & _ & h6).
  exists (star_mat m), (star m), l, a, ms, [1; m + 1]. split; [apply star_diss|]. split; [apply star_metric|]. split; [exact e|].
  pose proof (star_centre m) as hc. pose proof (star_best m hm) as hb.
  assert (hQ : (0 < Qn m)%Q) by (apply Qn_pos; lia).
  destruct ms as [|x ms]; [simpl in h1; lia|].
  assert (hx : x = 0).
  { destruct (Nat.eq_dec x 0) as [?|hne]; [assumption|exfalso]. specialize (h4 0 0 ltac:(simpl; lia) ltac:(lia)). cbn [firstn app] in h4.
    rewrite hc, star_other in h4 by (specialize (h3 x (or_introl eq_refl)); lia). lra. }
  subst x. destruct ms as [|y [|z ms]]; [| |simpl in h1; lia].
  { exfalso. specialize (h6 ltac:(simpl; lia)). rewrite h5, hc in h6. lra. }
  assert (hy : 1 <= y < 2 * m + 1).
  { specialize (h3 y (or_intror (or_introl eq_refl))). inversion h2 as [|? ? hy]. destruct y; [exfalso; apply hy; left; reflexivity|lia]. }
  rewrite (star_both m y hy) in h5.
  split. { apply inject_Z_injective. exact h5. }
  split. { split; [reflexivity|]. split; [repeat constructor; simpl; lia|]. intros o [<-|[<-|[]]]; lia. }
  split; [exact hb|]. cbn [nth]. rewrite h5, hc, hb. reflexivity.
Qed.
Print Assumptions C86_build_factor_refuted.
Example C86_star_value : pam_build (Lt := Z) (star_mat 6) 2 = Ok (6%Z, [0; 1; 1; 1; 1; 1; 1; 0; 0; 0; 0; 0; 0], [0; 1]).
Proof. vm_compute. reflexivity. Qed.

(** The alternating algorithm is not within any factor, even on metric data: with two of three objects at distance 0 it
    may stop at 1 although the total deviation 0 is possible. *)
Definition rows_twin : list (list Z) := [[0; 0; 1]; [0; 0; 1]; [1; 1; 0]]%Z.
Theorem C86_alternating_factor_refuted : exists (M : Mat Z) D (r : pam_result Z) opt,
  diss_matrix M 3 D /\ metric 3 (vals D) /\ medoids 3 2 [0; 1] /\ medoids 3 2 opt /\
  alternating M [0; 1] 10 = Ok r /\ r_iter r < 10 /\ (tdev (vals D) 3 opt == 0)%Q /\
  forall c, ~ (vL (r_loss r) <= c * tdev (vals D) 3 opt)%Q.
Proof.
  exists (mat_of_rows rows_twin), (entries rows_twin). do 2 eexists.
  split; [apply rows_diss; [lia|reflexivity]|]. split; [apply P_Approx.rows_metric; [lia|reflexivity..]|].
  split; [apply meds_ok; reflexivity|]. split; [apply (meds_ok 3 2 [0; 2]); reflexivity|]. split; [vm_compute; reflexivity|].
  split; [cbn; lia|].
  assert (h : (tdev (vals (entries rows_twin)) 3 [0%nat; 2%nat] == 0)%Q) by (vm_compute; reflexivity).
  split; [exact h|]. intros c hc. rewrite h in hc. setoid_replace (c * 0)%Q with 0%Q in hc by ring. revert hc. vm_compute. congruence.
Qed.
Print Assumptions C86_alternating_factor_refuted.
