(** GroupMsc.v -- the medoid silhouette on well separated groups (see Groups.v): it tells medoids which cover the
    groups from those which do not.  Nothing here refers to the model. *)
From Coq Require Import List Arith Lia ZArith QArith Qminmax Lqa Permutation.
From Verif Require Import Spec SpecFacts Approx SortFacts Reference Groups GroupSil.
Import ListNotations.
Open Scope nat_scope.

Local Notation nQ n := (inject_Z (Z.of_nat n)).

(** the two medoids the ratio is about *)
Lemma ratio_medoids v o med : 2 <= length med ->
  exists m1 m2, In m1 med /\ In m2 med /\ (v o m1 <= v o m2)%Q /\ near_ratio v o med = (v o m1 / v o m2)%Q.
Proof.
  intros hk. unfold near_ratio. pose proof (sortQ_perm (map (v o) med)) as hp.
  pose proof (sortQ_sorted (map (v o) med)) as hs.
  pose proof (Permutation_length hp) as hl. rewrite map_length in hl.
  destruct (sortQ (map (v o) med)) as [|p [|q r]]; cbn [length] in hl; try lia. cbn [nth].
  assert (h1 : In p (map (v o) med)) by (apply (Permutation_in _ (Permutation_sym hp)); left; reflexivity).
  assert (h2 : In q (map (v o) med)) by (apply (Permutation_in _ (Permutation_sym hp)); right; left; reflexivity).
  apply in_map_iff in h1 as (m1 & <- & h1). apply in_map_iff in h2 as (m2 & <- & h2).
  exists m1, m2. split; [exact h1|]. split; [exact h2|]. split; [|reflexivity]. apply hs. left. reflexivity.
Qed.

Lemma div_mono a b c d : (0 <= a)%Q -> (0 < d)%Q -> (0 < b)%Q -> (a * d <= c * b)%Q -> (a / b <= c / d)%Q.
Proof.
  intros h1 h2 h3 h4. apply Qle_shift_div_l; [exact h2|].
  setoid_replace (a / b * d)%Q with ((a * d) / b)%Q by (field; intros c0; rewrite c0 in h3; lra).
  apply Qle_shift_div_r; [exact h3|]. exact h4.
Qed.

Section GroupMsc.
  Variables (n k : nat) (v : diss) (g : nat -> nat) (d s : Q).
  Hypothesis HV : dissimilarity n v.
  Hypothesis HG : groups n k v g d s.
  Hypothesis Hk : 2 <= k.
  Hypothesis Hs : (0 < s)%Q.

  (** an object without a medoid in its group is not much nearer to one medoid than to another, if all distances are
      at most [S] *)
  Lemma missing_ratio S med i : (forall i j, i < n -> j < n -> (v i j <= S)%Q) -> 2 <= length med ->
    (forall m, In m med -> m < n) -> i < n -> (forall m, In m med -> g m <> g i) -> (s / S <= near_ratio v i med)%Q.
  Proof.
    intros hS hl hin hi hm. destruct (ratio_medoids v i med hl) as (m1 & m2 & h1 & h2 & hle & ->).
    pose proof (proj2 (proj2 (proj2 HG)) i m1 hi (hin _ h1) (fun e => hm m1 h1 (eq_sym e))) as h3.
    pose proof (hS i m2 hi (hin _ h2)) as h4. apply div_mono; [lra|lra|lra|]. nra.
  Qed.
  (** ... or if there are only two groups *)
  Lemma missing_ratio_two med i : k = 2 -> alike n v g d -> 2 <= length med ->
    (forall m, In m med -> m < n) -> i < n -> (forall m, In m med -> g m <> g i) -> (s / (s + d) <= near_ratio v i med)%Q.
  Proof.
    intros -> ha hl hin hi hm. destruct (ratio_medoids v i med hl) as (m1 & m2 & h1 & h2 & hle & ->).
    pose proof (proj2 (proj2 (proj2 HG)) i m1 hi (hin _ h1) (fun e => hm m1 h1 (eq_sym e))) as h3.
    assert (e : g m1 = g m2).
    { pose proof (proj1 HG i hi). pose proof (proj1 HG m1 (hin _ h1)). pose proof (proj1 HG m2 (hin _ h2)).
      pose proof (hm m1 h1). pose proof (hm m2 h2). lia. }
    pose proof (ha i m1 m2 hi (hin _ h1) (hin _ h2) e) as h4.
    assert (hd : (0 <= d)%Q) by (pose proof (proj1 (proj2 (proj2 HG)) i i hi hi eq_refl); pose proof (proj1 HV i hi); lra).
    apply div_mono; [lra|lra|lra|]. nra.
  Qed.

  Lemma missing_sil x med i : 2 <= length med -> (forall m, In m med -> m < n) -> i < n ->
    (x <= near_ratio v i med)%Q -> (x <= nQ n * (1 - med_sil v n med))%Q.
  Proof.
    intros hl hin hi hx.
    assert (hz : (0 < nQ n)%Q) by (change 0%Q with (inject_Z 0); rewrite <- Zlt_Qlt; lia).
    assert (hne : ~ (nQ n == 0)%Q) by (intros c; rewrite c in hz; lra).
    unfold med_sil. setoid_replace (nQ n * (1 - (1 - sumQ (fun o => near_ratio v o med) (seq 0 n) / nQ n)))%Q
      with (sumQ (fun o => near_ratio v o med) (seq 0 n)) by (field; exact hne).
    pose proof (sumQ_but_one (fun _ => 0%Q) (fun o => near_ratio v o med) x i n hi) as h.
    rewrite sumQ_const in h. assert (h' : (nQ (length (seq 0 n)) * 0 <= sumQ (fun o => near_ratio v o med) (seq 0 n) - x)%Q); [|lra].
    apply h; [|cbv beta; lra]. intros o ho. apply near_ratio_range; [exact hl|]. intros m hm. apply (proj2 HV); auto.
  Qed.

  (** ** The silhouette tells whether the groups are covered *)

  (** [x]: the least ratio of an object without a medoid in its group *)
  Definition least_ratio (x : Q) : Prop := forall med i, length med = k -> (forall m, In m med -> m < n) -> i < n ->
    (forall m, In m med -> g m <> g i) -> (x <= near_ratio v i med)%Q.

  Lemma high_covers x med : least_ratio x -> length med = k -> (forall m, In m med -> m < n) ->
    (nQ n * (1 - med_sil v n med) < x)%Q -> covers n g med.
  Proof.
    intros hx hl hin h. destruct (covers_dec n k g (Nat.lt_le_incl _ _ Hk) med) as [hc|(i & hi & hm)]; [exact hc|exfalso].
    pose proof (missing_sil x med i ltac:(lia) hin hi (hx med i hl hin hi hm)). lra.
  Qed.

  Hypothesis Hds : (d < s)%Q.
  Lemma kept_covers x e med med' : least_ratio x -> length med = k -> (forall m, In m med -> m < n) -> covers n g med ->
    length med' = k -> (forall m, In m med' -> m < n) -> (med_sil v n med - e <= med_sil v n med')%Q ->
    (nQ n * (d / s + e) < x)%Q -> covers n g med'.
  Proof.
    intros hx hl hin hc hl' hin' hle hlt. pose proof (groups_med_sil n k v g d s HV HG Hk Hds med hl hin hc) as h1.
    apply (high_covers x); auto.
    assert (hz : (0 <= nQ n)%Q) by (change 0%Q with (inject_Z 0); rewrite <- Zle_Qle; lia).
    assert (h2 : (nQ n * (1 - med_sil v n med') <= nQ n * (d / s + e))%Q); [|lra].
    rewrite !(Qmult_comm (nQ n)). apply Qmult_le_compat_r; [lra|exact hz].
  Qed.
End GroupMsc.

(** ** The plain searches (see Reference.v) *)
Section Search.
  Variables (n k : nat) (v : diss) (g : nat -> nat) (d s x : Q).
  Hypothesis HV : dissimilarity n v.
  Hypothesis HG : groups n k v g d s.
  Hypothesis Hk : 2 <= k.
  Hypothesis Hds : (d < s)%Q.
  Hypothesis Hx : least_ratio n k v g x.
  Hypothesis Hsep : (nQ n * (d / s) < x)%Q.

  Local Notation ok := (fun med : list nat => length med = k /\ forall m, In m med -> m < n).
  Local Notation sil := (med_sil v n).

  Lemma high med : ok med -> (1 - d / s <= sil med)%Q -> covers n g med.
  Proof.
    intros [hl hin] h. apply (high_covers n k v g HV Hk x); auto.
    assert (hz : (0 <= nQ n)%Q) by (change 0%Q with (inject_Z 0); rewrite <- Zle_Qle; lia).
    assert (h2 : (nQ n * (1 - sil med) <= nQ n * (d / s))%Q); [|lra].
    rewrite !(Qmult_comm (nQ n)). apply Qmult_le_compat_r; [lra|exact hz].
  Qed.
  Lemma covers_high med : ok med -> covers n g med -> (1 - d / s <= sil med)%Q.
  Proof. intros [hl hin] hc. apply (groups_med_sil n k v g d s HV HG Hk Hds med hl hin hc). Qed.
  Lemma low med i : ok med -> i < n -> (forall m, In m med -> g m <> g i) -> (sil med < 1 - d / s)%Q.
  Proof.
    intros hok hi hm. apply Qnot_le_lt. intros c. destruct (high med hok c i hi) as (m & h1 & h2).
    apply (hm m h1 h2).
  Qed.

  Lemma swaps_for_ok med j y : ok med -> j < n -> In y (swaps_for med j) -> ok y /\ exists b, b < k /\ y = swap med b j.
  Proof.
    intros [hl hin] hj h. unfold swaps_for in h. destruct (existsb (Nat.eqb j) med); [destruct h|].
    apply in_map_iff in h as (b & <- & hb). apply in_seq in hb. split; [split|].
    - rewrite length_swap; lia.
    - intros m. apply in_swap_lt; auto.
    - exists b. split; [lia|reflexivity].
  Qed.
  Lemma swaps_for_missing med b i : ok med -> b < k -> (forall m, In m med -> g m <> g i) -> In (swap med b i) (swaps_for med i).
  Proof.
    intros [hl _] hb hm. unfold swaps_for. destruct (existsb (Nat.eqb i) med) eqn:e.
    - apply existsb_exists in e as (y & hy & e). apply Nat.eqb_eq in e as <-. exfalso. apply (hm i hy). reflexivity.
    - apply in_map_iff. exists b. split; [reflexivity|]. apply in_seq. lia.
  Qed.

  (** the choice of a swap *)
  Lemma improve_some l med y : improve (sil_better v n) l med = Some y ->
    In y l /\ (sil med < sil y)%Q /\ forall z, In z l -> (sil z <= sil y)%Q.
  Proof.
    unfold improve. intros h. destruct (sil_better v n (first_best (sil_better v n) l med) med) eqn:e; [|discriminate].
    injection h as h. rewrite h in e. unfold sil_better in e. apply Qlt_bool_iff in e.
    assert (G : forall l x, let b := first_best (sil_better v n) l x in
      (b = x \/ In b l) /\ (sil x <= sil b)%Q /\ forall z, In z l -> (sil z <= sil b)%Q).
    { clear. unfold first_best. induction l as [|z l IH]; intros x; cbn [fold_left].
      - split; [left; reflexivity|]. split; [apply Qle_refl|]. intros z [].
      - destruct (sil_better v n z x) eqn:e; unfold sil_better in e.
        + apply Qlt_bool_iff in e. specialize (IH z). cbv zeta in IH. destruct IH as (h1 & h2 & h3).
          split; [right; destruct h1 as [->|h1]; [left; reflexivity|right; exact h1]|].
          split; [lra|]. intros w [<-|hw]; [exact h2|auto].
        + apply Qlt_bool_false in e. specialize (IH x). cbv zeta in IH. destruct IH as (h1 & h2 & h3).
          split; [destruct h1 as [h1|h1]; [left; exact h1|right; right; exact h1]|].
          split; [exact h2|]. intros w [<-|hw]; [lra|auto]. }
    destruct (G l med) as (h1 & h2 & h3). rewrite h in h1, h2, h3. split; [|split; [exact e|exact h3]].
    destruct h1 as [->|h1]; [lra|exact h1].
  Qed.
  Lemma improve_found l med z : In z l -> (sil med < sil z)%Q -> exists y, improve (sil_better v n) l med = Some y.
  Proof.
    intros hz hlt. destruct (improve (sil_better v n) l med) as [y|] eqn:e; [eauto|exfalso].
    unfold improve in e. destruct (sil_better v n (first_best (sil_better v n) l med) med) eqn:e2; [discriminate|].
    unfold sil_better in e2 at 1. apply Qlt_bool_false in e2.
    assert (G : forall l x, (sil x <= sil (first_best (sil_better v n) l x))%Q /\
      forall z, In z l -> (sil z <= sil (first_best (sil_better v n) l x))%Q).
    { clear. unfold first_best. induction l as [|z l IH]; intros x; cbn [fold_left].
      - split; [apply Qle_refl|]. intros z [].
      - destruct (sil_better v n z x) eqn:e; unfold sil_better in e.
        + apply Qlt_bool_iff in e. destruct (IH z) as (h2 & h3). split; [lra|]. intros w [<-|hw]; [exact h2|auto].
        + apply Qlt_bool_false in e. destruct (IH x) as (h2 & h3). split; [exact h2|]. intros w [<-|hw]; [lra|auto]. }
    destruct (G l med) as (h1 & h2). specialize (h2 z hz). lra.
  Qed.

  Local Notation try := (fun m j => improve (sil_better v n) (swaps_for m j) m).
  Lemma pass_keeps order st : (forall j, In j order -> j < n) -> ok (fst st) -> covers n g (fst st) ->
    ok (fst (pass try order st)) /\ covers n g (fst (pass try order st)).
  Proof.
    unfold pass. revert st. induction order as [|j l IH]; intros [y0 c] hor hx hc; cbn [fold_left fst]; [auto|].
    destruct (improve (sil_better v n) (swaps_for y0 j) y0) as [y|] eqn:e; apply IH; cbn [fst snd]; auto;
      try (intros w hw; apply hor; right; exact hw).
    - apply improve_some in e as (h1 & _). apply (swaps_for_ok y0 j); auto. apply hor. left. reflexivity.
    - apply improve_some in e as (h1 & h2 & _). destruct (swaps_for_ok y0 j y) as [hy _]; auto; [apply hor; left; reflexivity|].
      cbn [fst] in hx, hc. pose proof (covers_high y0 hx hc). apply high; auto. lra.
  Qed.
  Lemma search_keeps maxiter : forall med a b, ok med -> covers n g med ->
    covers n g (fst (fst (search try (seq 0 n) maxiter med a b))).
  Proof.
    induction maxiter as [|m IH]; intros med a b hm hc; [exact hc|]. cbn [search].
    assert (hor : forall j, In j (seq 0 n) -> j < n) by (intros j hj; apply in_seq in hj; lia).
    destruct (pass_keeps (seq 0 n) (med, a) hor hm hc) as [h1 h2].
    destruct (snd (pass try (seq 0 n) (med, a)) =? a); [exact h2|]. apply IH; auto.
  Qed.

  Local Notation best := (fun m => improve (sil_better v n) (all_swaps n m) m).
  Lemma all_swaps_ok med y : ok med -> In y (all_swaps n med) -> ok y.
  Proof.
    intros hm h. unfold all_swaps in h. apply in_flat_map in h as (j & hj & h). apply in_seq in hj.
    apply (swaps_for_ok med j); auto. lia.
  Qed.
  Lemma descent_keeps maxiter : forall med a b, ok med -> covers n g med ->
    covers n g (fst (fst (descent best maxiter med a b))).
  Proof.
    induction maxiter as [|m IH]; intros med a b hm hc; [exact hc|]. cbn [descent].
    destruct (improve (sil_better v n) (all_swaps n med) med) as [y|] eqn:e; [|exact hc].
    apply improve_some in e as (h1 & h2 & _). pose proof (all_swaps_ok med y hm h1) as hy.
    apply IH; [exact hy|]. pose proof (covers_high med hm hc). apply high; auto. lra.
  Qed.
  (** best improvement, if some swap covers the groups *)
  Lemma descent_finds maxiter med b i : ok med -> 1 <= maxiter -> i < n -> b < k -> (forall m, In m med -> g m <> g i) ->
    covers n g (swap med b i) -> covers n g (fst (fst (best_swaps (sil_better v n) n med maxiter))).
  Proof.
    intros hm hi hn hb hmi hc. unfold best_swaps. destruct maxiter as [|m]; [lia|]. cbn [descent].
    assert (hin : In (swap med b i) (all_swaps n med)).
    { unfold all_swaps. apply in_flat_map. exists i. split; [apply in_seq; lia|]. apply swaps_for_missing; auto. }
    pose proof (low med i hm hn hmi) as h1. pose proof (covers_high _ (all_swaps_ok med _ hm hin) hc) as h2.
    destruct (improve_found _ med _ hin ltac:(lra)) as (y & e). rewrite e. apply improve_some in e as (h3 & h4 & h5).
    pose proof (all_swaps_ok med y hm h3) as hy. specialize (h5 _ hin). apply descent_keeps; [exact hy|].
    apply high; auto. lra.
  Qed.
End Search.

(** ** Two groups: some swap covers them *)
Section Two.
  Variables (n : nat) (v : diss) (g : nat -> nat) (d s : Q).
  Hypothesis HV : dissimilarity n v.
  Hypothesis HG : groups n 2 v g d s.
  Hypothesis Ha : alike n v g d.
  Hypothesis Hs : (0 < s)%Q.
  Hypothesis Hds : (d < s)%Q.

  Lemma two_least_ratio : least_ratio n 2 v g (s / (s + d)).
  Proof. intros med i hl. apply (missing_ratio_two n 2 v g d s HV HG (le_n 2) Hs); auto. lia. Qed.

  Lemma two_swap med b i : length med = 2 -> (forall m, In m med -> m < n) -> b < 2 -> i < n ->
    (forall m, In m med -> g m <> g i) -> covers n g (swap med b i).
  Proof.
    intros hl hin hb hi hm. apply (distinct_covers n 2 v g d s HG (le_S _ _ (le_n 1))).
    - intros m h. apply (in_swap_lt n med b i); auto.
    - rewrite length_swap; lia.
    - destruct med as [|x [|y [|]]]; try discriminate hl.
      assert (hx : g x <> g i) by (apply hm; left; reflexivity).
      assert (hy : g y <> g i) by (apply hm; right; left; reflexivity).
      destruct b as [|[|]]; [| |lia]; unfold swap; cbn; (constructor; [|constructor; [auto|constructor]]); intros [h|[]]; congruence.
  Qed.

  (** medoids which no swap with another object improves by more than [e] *)
  Lemma optimal_high med e : (0 <= e)%Q -> length med = 2 -> (forall m, In m med -> m < n) ->
    (forall b j, b < length med -> j < n -> ~ In j med -> (med_sil v n (swap med b j) <= med_sil v n med + e)%Q) ->
    (1 - d / s - e <= med_sil v n med)%Q.
  Proof.
    intros he hl hin ho. destruct (covers_dec n 2 g (le_S _ _ (le_n 1)) med) as [hc|(i & hi & hm)].
    - pose proof (groups_med_sil n 2 v g d s HV HG (le_n 2) Hds med hl hin hc). lra.
    - pose proof (two_swap med 0 i hl hin ltac:(lia) hi hm) as hc.
      assert (hin' : forall m, In m (swap med 0 i) -> m < n) by (intros m; apply in_swap_lt; auto).
      assert (hl' : length (swap med 0 i) = 2) by (rewrite length_swap; lia).
      pose proof (groups_med_sil n 2 v g d s HV HG (le_n 2) Hds _ hl' hin' hc) as h1.
      assert (h2 : (med_sil v n (swap med 0 i) <= med_sil v n med + e)%Q); [|lra].
      apply ho; [lia|exact hi|]. intros c. apply (hm i c). reflexivity.
  Qed.

  Hypothesis Hsep : (nQ n * (d / s) < s / (s + d))%Q.
  Local Notation ok := (fun med : list nat => length med = 2 /\ forall m, In m med -> m < n).
  Local Notation sil := (med_sil v n).
  Local Notation high := (high n 2 v g d s (s / (s + d)) HV (le_n 2) two_least_ratio Hsep).
  Local Notation covers_high := (covers_high n 2 v g d s HV HG (le_n 2) Hds).
  Local Notation low := (low n 2 v g d s (s / (s + d)) HV (le_n 2) two_least_ratio Hsep).
  Local Notation pass_keeps := (pass_keeps n 2 v g d s (s / (s + d)) HV HG (le_n 2) Hds two_least_ratio Hsep).
  Local Notation search_keeps := (search_keeps n 2 v g d s (s / (s + d)) HV HG (le_n 2) Hds two_least_ratio Hsep).
  Local Notation descent_keeps := (descent_keeps n 2 v g d s (s / (s + d)) HV HG (le_n 2) Hds two_least_ratio Hsep).
  Local Notation swaps_for_ok := (swaps_for_ok n 2 (le_n 2)).
  Local Notation swaps_for_missing := (swaps_for_missing n 2 g (le_n 2)).
  Local Notation improve_found := (improve_found n v).

  (** medoids which do not cover the groups after a swap leave out the same group as before *)
  Lemma swap_missing med b j i : ok med -> b < 2 -> j < n -> i < n -> (forall m, In m med -> g m <> g i) ->
    covers n g (swap med b j) \/ forall m, In m (swap med b j) -> g m <> g i.
  Proof.
    intros [hl hin] hb hj hi hm. destruct (Nat.eq_dec (g j) (g i)) as [e|e].
    - left. intros o ho. destruct (two_swap med b i hl hin hb hi hm o ho) as (m & h1 & h2).
      destruct (Nat.eq_dec (g o) (g j)) as [e2|e2]; [exists j; split; [apply in_swap_new|auto]|].
      exists m. split; [|exact h2]. unfold swap in *. apply in_app_or in h1 as [h1|[h1|h1]]; apply in_or_app; auto; [|right; right; exact h1].
      subst m. congruence.
    - right. intros m h. unfold swap in h. apply in_app_or in h as [h|[<-|h]]; [|exact e|]; apply hm.
      + rewrite <- (firstn_skipn b med). apply in_or_app. auto.
      + rewrite <- (firstn_skipn (S b) med). apply in_or_app. auto.
  Qed.

  Local Notation try := (fun m j => improve (sil_better v n) (swaps_for m j) m).
  Lemma pass_finds order st i : (forall j, In j order -> j < n) -> ok (fst st) -> In i order ->
    (forall m, In m (fst st) -> g m <> g i) ->
    ok (fst (pass try order st)) /\ covers n g (fst (pass try order st)).
  Proof.
    intros hor. assert (hor' : forall j, In j order -> j < n) by exact hor.
    unfold pass. revert st. induction order as [|j l IH]; intros [x c] hx hi hm; cbn [fst] in *; [destruct hi|].
    assert (hl : forall w, In w l -> w < n) by (intros w hw; apply hor; right; exact hw).
    assert (hj : j < n) by (apply hor; left; reflexivity). cbn [fold_left fst].
    destruct hi as [->|hi].
    - destruct (improve_found (swaps_for x i) x (swap x 0 i)) as (y & e).
      + apply swaps_for_missing; auto.
      + pose proof (low x i hx hj hm) as h1.
        assert (hs0 : ok (swap x 0 i) /\ exists b, b < 2 /\ swap x 0 i = swap x b i) by (apply swaps_for_ok; auto; apply swaps_for_missing; auto).
        pose proof (covers_high _ (proj1 hs0) (two_swap x 0 i (proj1 hx) (proj2 hx) ltac:(lia) hj hm)). lra.
      + rewrite e. apply improve_some in e as (h1 & h2 & h3). destruct (swaps_for_ok x i y hx hj h1) as (hy & _).
        apply pass_keeps; auto. cbn [fst].
        apply high; [exact hy|]. specialize (h3 (swap x 0 i) (swaps_for_missing x 0 i hx ltac:(lia) hm)).
        assert (hs0 : ok (swap x 0 i) /\ exists b, b < 2 /\ swap x 0 i = swap x b i) by (apply swaps_for_ok; auto; apply swaps_for_missing; auto).
        pose proof (covers_high _ (proj1 hs0) (two_swap x 0 i (proj1 hx) (proj2 hx) ltac:(lia) hj hm)). lra.
    - destruct (improve (sil_better v n) (swaps_for x j) x) as [y|] eqn:e; [|apply IH; auto].
      apply improve_some in e as (h1 & h2 & h3). destruct (swaps_for_ok x j y hx hj h1) as (hy & b & hb & ->).
      destruct (swap_missing x b j i hx hb hj (hl i hi) hm) as [hc|hc].
      + apply pass_keeps; auto.
      + apply IH; auto.
  Qed.
  Lemma eager_covers maxiter med : ok med -> 1 <= maxiter ->
    covers n g (fst (fst (eager_swaps (sil_better v n) (seq 0 n) med maxiter))).
  Proof.
    intros hm hi. destruct (covers_dec n 2 g (le_S _ _ (le_n 1)) med) as [hc|(i & hn & hmi)]; [apply search_keeps; auto|].
    unfold eager_swaps. destruct maxiter as [|m]; [lia|]. cbn [search].
    assert (hor : forall j, In j (seq 0 n) -> j < n) by (intros j hj; apply in_seq in hj; lia).
    destruct (pass_finds (seq 0 n) (med, 0) i hor hm) as [h1 h2]; auto; [apply in_seq; lia|].
    destruct (snd (pass try (seq 0 n) (med, 0)) =? 0); [exact h2|]. apply search_keeps; auto.
  Qed.
  Lemma best_covers maxiter med : ok med -> 1 <= maxiter ->
    covers n g (fst (fst (best_swaps (sil_better v n) n med maxiter))).
  Proof.
    intros hm hi. destruct (covers_dec n 2 g (le_S _ _ (le_n 1)) med) as [hc|(i & hn & hmi)]; [apply descent_keeps; auto|].
    apply (descent_finds n 2 v g d s (s / (s + d)) HV HG (le_n 2) Hds two_least_ratio Hsep maxiter med 0 i); auto.
    apply two_swap; auto; apply hm.
  Qed.
End Two.

(** ** BUILD which leaves out object 0 after the first medoid *)
Section Build.
  Variables (n k : nat) (v : diss) (g : nat -> nat) (d s : Q).
  Hypothesis HV : dissimilarity n v.
  Hypothesis HG : groups n k v g d s.
  Hypothesis Hk : 1 <= k.
  Hypothesis Ha : alike n v g d.

  Lemma firstn_snoc (l : list nat) i : i < length l -> firstn (S i) l = firstn i l ++ [nth i l 0].
  Proof.
    revert i. induction l as [|x l IH]; intros i hi; [cbn in hi; lia|]. destruct i as [|i]; [reflexivity|].
    cbn [firstn nth app]. f_equal. apply IH. cbn in hi. lia.
  Qed.

  (** as long as a group with an object other than 0 has no medoid, the next medoid goes to a new group *)
  Lemma greedy_new meds e i y : (forall m, In m meds -> m < n) -> (nQ n * d + e < s)%Q -> i < length meds ->
    (forall y, y < n -> i = 0 \/ y <> 0 -> (tdev v n (firstn (S i) meds) <= tdev v n (firstn i meds ++ [y]) + e)%Q) ->
    0 < y < n -> (forall m, In m (firstn i meds) -> g m <> g y) -> ~ In (g (nth i meds 0)) (map g (firstn i meds)).
  Proof.
    intros hin hs hi hgr hy hmiss. pose proof (firstn_snoc meds i hi) as e1.
    set (x := nth i meds 0) in *. set (p := firstn i meds) in *.
    assert (hx : x < n) by (apply hin; apply nth_In; lia).
    assert (hp : forall m, In m p -> m < n).
    { intros m hm. apply hin. rewrite <- (firstn_skipn i meds). apply in_or_app. auto. }
    intros c. apply in_map_iff in c as (m & em & hm).
    assert (hne : p <> []) by (intros c; rewrite c in hm; destruct hm).
    pose proof (far_new n k v g d s HV HG Hk p x Ha hne hp hx (ex_intro _ m (conj hm em))) as h1. rewrite <- e1 in h1.
    specialize (hgr y ltac:(lia) ltac:(lia)).
    pose proof (tdev_snoc_le HV (ltac:(lia) : y < n) hne) as h2.
    pose proof (missing_far n k v g d s HG p y hne hp (ltac:(lia) : y < n) hmiss). lra.
  Qed.

  (** all but possibly the last medoid are in different groups *)
  Lemma greedy_but_last meds e : (forall m, In m meds -> m < n) -> (nQ n * d + e < s)%Q -> length meds <= k ->
    (forall i y, i < length meds -> y < n -> i = 0 \/ y <> 0 ->
       (tdev v n (firstn (S i) meds) <= tdev v n (firstn i meds ++ [y]) + e)%Q) ->
    forall i, i <= length meds -> i < k -> NoDup (map g (firstn i meds)).
  Proof.
    intros hin hs hl hgr. induction i as [|i IH]; intros hi hik; [constructor|]. specialize (IH ltac:(lia) ltac:(lia)).
    rewrite (firstn_snoc meds i ltac:(lia)), map_app. cbn [map].
    apply (Permutation_NoDup (Permutation_cons_append _ _)). constructor; [|exact IH].
    assert (hpl : length (firstn i meds) = i) by (apply firstn_length_le; lia).
    destruct (covers_dec n k g Hk (firstn i meds ++ [0])) as [hc|(y & hy & hm)].
    - pose proof (covers_len n k v g d s HG Hk _ hc) as h. rewrite app_length, hpl in h. cbn [length] in h. lia.
    - assert (hy0 : y <> 0).
      { intros ->. apply (hm 0); [|reflexivity]. apply in_or_app. right. left. reflexivity. }
      apply (greedy_new meds e i y); auto; [lia|]. intros m h. apply hm. apply in_or_app. left. exact h.
  Qed.

  Lemma greedy_two meds e i : (forall m, In m meds -> m < n) -> (nQ n * d + e < s)%Q -> length meds = k -> i < n ->
    (forall i y, i < length meds -> y < n -> i = 0 \/ y <> 0 ->
       (tdev v n (firstn (S i) meds) <= tdev v n (firstn i meds ++ [y]) + e)%Q) ->
    (forall m, In m meds -> g m <> g i) -> covers n g (swap meds (k - 1) i).
  Proof.
    intros hin hs hl hi hgr hm. pose proof (greedy_but_last meds e hin hs ltac:(lia) hgr (k - 1) ltac:(lia) ltac:(lia)) as h.
    apply (distinct_covers n k v g d s HG Hk).
    - intros m hmm. apply (in_swap_lt n meds (k - 1) i); auto.
    - rewrite length_swap; lia.
    - unfold swap. replace (S (k - 1)) with (length meds) by lia. rewrite skipn_all, map_app. cbn [map].
      apply (Permutation_NoDup (Permutation_cons_append _ _)). constructor; [|exact h].
      intros c. apply in_map_iff in c as (m & em & hmm). apply (hm m); [|exact em].
      rewrite <- (firstn_skipn (k - 1) meds). apply in_or_app. left. exact hmm.
  Qed.

  (** object 0 is not alone in its group *)
  Definition not_alone : Prop := exists j, 0 < j < n /\ g j = g 0.

  Lemma greedy_but_0_covers meds e : not_alone -> (forall m, In m meds -> m < n) -> (0 <= e)%Q -> (nQ n * d + e < s)%Q -> 1 <= length meds <= k ->
    length meds = k \/ (forall y, 1 <= y < n -> (mindist v y meds == 0)%Q) ->
    (forall i y, i < length meds -> y < n -> i = 0 \/ y <> 0 ->
       (tdev v n (firstn (S i) meds) <= tdev v n (firstn i meds ++ [y]) + e)%Q) ->
    length meds = k /\ covers n g meds.
  Proof.
    intros (j & hj & ej) hin he hs hl hend hgr.
    assert (hd : (0 <= d)%Q) by (apply (gr_d n k v g d s); auto).
    assert (hs0 : (0 < s)%Q).
    { assert (hz : (0 <= nQ n)%Q) by (change 0%Q with (inject_Z 0); rewrite <- Zle_Qle; lia). nra. }
    assert (J : forall l, covers n g l \/ exists y, 0 < y < n /\ forall m, In m l -> g m <> g y).
    { intros l. destruct (covers_dec n k g Hk l) as [hc|([|y] & hy & hm)]; [left; exact hc|right..].
      - exists j. rewrite ej. auto.
      - exists (S y). split; [lia|exact hm]. }
    assert (hc : covers n g meds).
    { destruct (J meds) as [hc|(y & hy & hm)]; [exact hc|exfalso]. destruct hend as [hk|hz].
      - assert (hnd : NoDup (map g meds)).
        { replace meds with (firstn (k - 1) meds ++ [nth (k - 1) meds 0]) at 1.
          2:{ rewrite <- firstn_snoc by lia. replace (S (k - 1)) with (length meds) by lia. apply firstn_all. }
          rewrite map_app. cbn [map]. apply (Permutation_NoDup (Permutation_cons_append _ _)).
          constructor; [|apply (greedy_but_last meds e); auto; lia].
          apply (greedy_new meds e (k - 1) y); auto; [lia|intros z hz h0; apply hgr; auto; lia|].
          intros m h. apply hm. rewrite <- (firstn_skipn (k - 1) meds). apply in_or_app. left. exact h. }
        destruct (distinct_covers n k v g d s HG Hk meds hin hk hnd y (proj2 hy)) as (m & h1 & h2). apply (hm m h1 h2).
      - assert (hne : meds <> []) by (intros ->; cbn in hl; lia).
        pose proof (missing_far n k v g d s HG meds y hne hin (proj2 hy) hm) as h1. rewrite (hz y ltac:(lia)) in h1. lra. }
    split; [|exact hc]. pose proof (covers_len n k v g d s HG Hk meds hc). lia.
  Qed.
End Build.
