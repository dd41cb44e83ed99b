(** P_RefDyn.v -- property C59: dynmsc against the search of ReferenceDyn.v.
    Concrete inputs which meet the hypotheses stand below the theorems. *)
From Coq Require Import ZArith QArith Lqa Lia Permutation.
From Verif Require Import Base Num M_Mat M_Util M_Fasterpam M_Silhouette M_Msc M_Dynmsc Inst Hoare Spec SpecFacts Laws
  PamShape MscExact MscMain DynShape DynFacts DynExact Reference RefFacts ReferenceDyn DynRef Ex P_Dynmsc P_Reference.
Open Scope nat_scope.

(** C59.  With two to four initial medoids dynmsc is: search with first improvement, drop the medoid
    whose removal gives the smallest medoid silhouette (the first of them), search again, down to
    max(minimum_k, 2) medoids.  The medoids returned are the first of the best end points, swaps and
    iterations are the totals, the losses are the medoid silhouettes of the end points. *)
Theorem C59_dynmsc_is_shrinking_search {Nt Lt : Type} `{HLL : LossLaws Nt Lt} `{HAL : !AddLaws Nt} `{HDL : !DivLaws Nt Lt}
    (M : Mat Nt) n D med mink maxiter :
  diss_matrix M n D -> sizes n (length med) -> medoids n (length med) med -> 2 <= length med <= 4 ->
  let mk := Nat.min (Nat.max mink 1) (length med) in
  let runs := shrink (vals D) n maxiter (length med - Nat.max mk 2 + 1) med in
  exists r : dyn_result Lt, dynmsc M med mink maxiter = Ok r /\
    r_med (d_res r) = best_run (vals D) n runs /\
    r_swaps (d_res r) = all_swapped runs /\ r_iter (d_res r) = all_passes runs /\
    (vL (r_loss (d_res r)) == med_sil (vals D) n (best_run (vals D) n runs))%Q /\
    (forall c, mk <= c -> 2 <= c <= length med ->
       (vL (nth (c - mk) (d_losses r) lzero) == med_sil (vals D) n (end_of runs (length med - c)))%Q) /\
    (mk = 1 -> nth 0 (d_losses r) lzero = lzero) /\ length (d_losses r) = length med - mk + 1.
Proof.
  intros hd hs hm hk. cbv zeta.
  destruct (dynmsc_ref (Lt := Lt) hd maxiter hs hm hk mink) as (r & e & h1 & h2 & h3 & h4).
  destruct (dynmsc_ok (Lt := Lt) hd maxiter hs hm mink (proj1 hk)) as (r' & e' & hf & hg).
  rewrite e in e'. injection e' as <-.
  exists r. split; [exact e|]. split; [exact h1|]. split; [exact h2|]. split; [exact h3|].
  split. { rewrite <- h1. apply (dg_value hg). right. right. apply hk. }
  split; [exact h4|]. split; [|exact (df_len hf)].
  intros em. apply (df_one hf). lia.
Qed.
Print Assumptions C59_dynmsc_is_shrinking_search.

Lemma s64 : sizes 6 4. Proof. apply sizes_ok. reflexivity. Qed.
Lemma k64 : medoids 6 4 [0; 1; 3; 5]. Proof. apply meds_ok. reflexivity. Qed.
Lemma le244 : 2 <= 4 <= 4. Proof. lia. Qed.
Definition C59_case := C59_dynmsc_is_shrinking_search (Lt := Q) m6 6 d6 [0; 1; 3; 5] 1 10 m6_diss s64 k64 le244.
(** every search of this case swaps, and swaps differ from passes *)
Lemma C59_case_runs : shrink (vals d6) 6 10 3 [0; 1; 3; 5] = [([2; 1; 3; 5], 1, 2); ([0; 5; 3], 1, 2); ([3; 4], 4, 3)].
Proof. vm_compute. reflexivity. Qed.

(** False for five initial medoids: dynmsc returns medoids which the search does not visit, and whose
    medoid silhouette is smaller than the one of the medoids it should return. *)
Theorem C59_five_medoids_refuted : exists (M : Mat Z) D (r : dyn_result Q),
  diss_matrix M 6 D /\ symmetric 6 (vals D) /\ sizes 6 5 /\ medoids 6 5 [5; 3; 2; 4; 1] /\
  dynmsc M [5; 3; 2; 4; 1] 1 100 = Ok r /\
  let runs := shrink (vals D) 6 100 4 [5; 3; 2; 4; 1] in
  r_med (d_res r) <> best_run (vals D) 6 runs /\
  (med_sil (vals D) 6 (r_med (d_res r)) < med_sil (vals D) 6 (best_run (vals D) 6 runs))%Q.
Proof.
  exists (mat_of_rows rows_dyn), (entries rows_dyn). eexists.
  split; [apply rows_diss; [lia|reflexivity]|]. split; [apply rows_sym; reflexivity|].
  split; [apply sizes_ok; reflexivity|].
  split; [apply meds_ok; reflexivity|]. split; [vm_compute; reflexivity|].
  split; [vm_compute; discriminate|vm_compute; reflexivity].
Qed.
Print Assumptions C59_five_medoids_refuted.

(** ** scaled dissimilarities *)
Lemma drop_at_inr n med b : b < length med -> inr n med -> inr n (drop_at med b).
Proof. intros hb h. rewrite drop_at_removed by auto. apply removed_inr; auto. Qed.

Section Scale.
  Variables v1 v2 : diss.
  Variable n : nat.
  Variable c : Q.
  Hypothesis Hc : (0 < c)%Q.
  Hypothesis Hv : forall i j, i < n -> j < n -> (v2 i j == c * v1 i j)%Q.

  Lemma first_best_same (b1 b2 : list nat -> list nat -> bool) l x :
    (forall a b, inr n a -> inr n b -> b2 a b = b1 a b) -> inr n x -> (forall y, In y l -> inr n y) ->
    first_best b2 l x = first_best b1 l x /\ inr n (first_best b1 l x).
  Proof.
    intros hb hx hl.
    pose proof (@first_best_map _ _ (inr n) (fun y => y) b1 b2 l x (fun y z hy hz => hb y z hy hz) hx hl) as h.
    rewrite map_id in h. exact h.
  Qed.

  Lemma worst_drop_scale med : med <> [] -> inr n med ->
    worst_drop v2 n med = worst_drop v1 n med /\ inr n (worst_drop v1 n med).
  Proof.
    intros hne hin. assert (hl : 1 <= length med) by (destruct med; [congruence|simpl; lia]).
    apply first_best_same.
    - intros a b ha hb. apply sil_scale with (c := c); auto.
    - apply drop_at_inr; auto.
    - intros y hy. apply in_map_iff in hy as (b & <- & hb). apply in_seq in hb. apply drop_at_inr; auto. lia.
  Qed.

  Lemma length_swaps_for med j y : In y (swaps_for med j) -> length y = length med.
  Proof.
    unfold swaps_for. destruct (existsb _ _); [simpl; tauto|]. intros h. apply in_map_iff in h as (b & <- & hb).
    apply in_seq in hb. unfold swap. rewrite app_length, firstn_length. cbn [length]. rewrite skipn_length. lia.
  Qed.

  Lemma eager_keeps (b1 : list nat -> list nat -> bool) order med maxiter k :
    (forall j, In j order -> j < n) -> inr n med -> length med = k ->
    inr n (fst (fst (eager_swaps b1 order med maxiter))) /\
    length (fst (fst (eager_swaps b1 order med maxiter))) = k.
  Proof.
    intros ho hin hl. unfold eager_swaps.
    pose proof (@search_map _ _ (fun m => inr n m /\ length m = k) (fun m => m) (fun j => j)
      (fun m j => improve b1 (swaps_for m j) m) (fun m j => improve b1 (swaps_for m j) m) order) as h.
    apply h; auto. intros x j [hx hx'] hj.
    destruct (@improve_map _ _ (fun m => inr n m /\ length m = k) (fun m => m) b1 b1 (swaps_for x j) x) as [_ q]; auto.
    - intros y hy. split; [eapply swaps_for_inr; eauto|]. rewrite (length_swaps_for _ _ _ hy). auto.
    - split; [|exact q]. destruct (improve b1 (swaps_for x j) x); auto.
  Qed.

  Lemma length_worst_drop v med : length (worst_drop v n med) = length med - 1.
  Proof.
    assert (hd : forall b, length (drop_at med b) <= length med - 1).
    { intros b. unfold drop_at. rewrite firstn_length. lia. }
    unfold worst_drop. destruct med as [|m med']; [auto|]. set (med := m :: med') in *.
    assert (G : forall l x, length x = length med - 1 -> (forall y, In y l -> length y = length med - 1) ->
      length (first_best (fun a b => sil_better v n b a) l x) = length med - 1).
    { unfold first_best. induction l as [|y l IH]; intros x hx hl; [auto|]. cbn [fold_left].
      apply IH; [|intros z hz; apply hl; simpl; auto]. destruct (sil_better v n x y); [|auto]. apply hl. simpl. auto. }
    apply G.
    - rewrite drop_at_removed, length_removed; [auto|simpl; lia].
    - intros y hy. apply in_map_iff in hy as (b & <- & hb). apply in_seq in hb.
      rewrite drop_at_removed, length_removed; [auto|]. simpl in hb |- *. lia.
  Qed.

  Lemma shrink_scale maxiter t med : t <= length med -> inr n med ->
    shrink v2 n maxiter t med = shrink v1 n maxiter t med /\
    (forall r, In r (shrink v1 n maxiter t med) -> inr n (fst (fst r))).
  Proof.
    revert med. induction t as [|t IH]; intros med ht hin; cbn [shrink]; [simpl; tauto|].
    assert (ho : forall j, In j (seq 0 n) -> j < n) by (intros j hj; apply in_seq in hj; lia).
    rewrite (@eager_scale n (sil_better v1 n) (sil_better v2 n)); auto;
      [|intros a b ha hb; apply sil_scale with (c := c); auto].
    destruct (@eager_keeps (sil_better v1 n) (seq 0 n) med maxiter (length med) ho hin eq_refl) as [k1 k2].
    set (r := eager_swaps (sil_better v1 n) (seq 0 n) med maxiter) in *.
    assert (hne : fst (fst r) <> []) by (intros e; rewrite e in k2; simpl in k2; lia).
    destruct (@worst_drop_scale (fst (fst r)) hne k1) as [-> w]. 
    destruct (IH (worst_drop v1 n (fst (fst r)))) as [i1 i2]; [rewrite length_worst_drop; lia|auto|].
    rewrite i1. split; [auto|]. intros q [<-|hq]; auto.
  Qed.

  Lemma best_run_scale runs : (forall r, In r runs -> inr n (fst (fst r))) ->
    best_run v2 n runs = best_run v1 n runs /\ inr n (best_run v1 n runs).
  Proof.
    intros h. unfold best_run. destruct runs as [|r runs]; [split; [auto|intros x []]|]. cbn [map].
    apply first_best_same.
    - intros a b ha hb. apply sil_scale with (c := c); auto.
    - apply h. simpl. auto.
    - intros y hy. apply in_map_iff in hy as (q & <- & hq). apply h. simpl. auto.
  Qed.
End Scale.

(** C56 for dynmsc *)
Theorem C56_scale_dynmsc {N1 L1 N2 L2 : Type} `{HLL1 : LossLaws N1 L1} `{HAL1 : !AddLaws N1} `{HDL1 : !DivLaws N1 L1}
    `{HLL2 : LossLaws N2 L2} `{HAL2 : !AddLaws N2} `{HDL2 : !DivLaws N2 L2}
    (M1 : Mat N1) (M2 : Mat N2) n D1 D2 c med mink maxiter :
  diss_matrix M1 n D1 -> diss_matrix M2 n D2 -> times c n (vals D1) (vals D2) ->
  sizes n (length med) -> medoids n (length med) med -> 2 <= length med <= 4 ->
  exists (r1 : dyn_result L1) (r2 : dyn_result L2),
    dynmsc M1 med mink maxiter = Ok r1 /\ dynmsc M2 med mink maxiter = Ok r2 /\
    r_med (d_res r2) = r_med (d_res r1) /\ r_swaps (d_res r2) = r_swaps (d_res r1) /\
    r_iter (d_res r2) = r_iter (d_res r1) /\ (vL (r_loss (d_res r2)) == vL (r_loss (d_res r1)))%Q /\
    length (d_losses r2) = length (d_losses r1) /\
    forall i, i < length (d_losses r1) -> (vL (nth i (d_losses r2) lzero) == vL (nth i (d_losses r1) lzero))%Q.
Proof.
  intros hd1 hd2 [hc hv] hs hm hk.
  destruct (C59_dynmsc_is_shrinking_search (Lt := L1) M1 n D1 med mink maxiter hd1 hs hm hk) as (r1 & e1 & a1 & a2 & a3 & a4 & a5 & a6 & a7).
  destruct (C59_dynmsc_is_shrinking_search (Lt := L2) M2 n D2 med mink maxiter hd2 hs hm hk) as (r2 & e2 & b1 & b2 & b3 & b4 & b5 & b6 & b7).
  set (mk := Nat.min (Nat.max mink 1) (length med)) in *. assert (hmk : 1 <= mk <= length med) by (unfold mk; lia). clearbody mk.
  exists r1, r2. split; [exact e1|]. split; [exact e2|].
  assert (hin : inr n med) by exact (proj2 (proj2 hm)).
  assert (ht : length med - Nat.max mk 2 + 1 <= length med) by lia.
  destruct (@shrink_scale (vals D1) (vals D2) n c hc hv maxiter _ med ht hin) as [es hr].
  rewrite es in *. set (runs := shrink (vals D1) n maxiter _ med) in *.
  destruct (@best_run_scale (vals D1) (vals D2) n c hc hv runs hr) as [eb hb].
  assert (hsil : forall m, inr n m -> (med_sil (vals D2) n m == med_sil (vals D1) n m)%Q).
  { intros m h. rewrite <- (map_id m) at 1. apply scaled_sil with (c := c) (sg := fun i => i); auto using perm_id. }
  split; [congruence|]. split; [congruence|]. split; [congruence|].
  split; [rewrite b4, a4, eb; auto|]. split; [congruence|].
  intros i hi. destruct (Nat.eq_dec (i + mk) 1) as [h1|h1].
  - replace i with 0 by lia. rewrite a6, b6, !vL_zero by lia. reflexivity.
  - specialize (a5 (i + mk) ltac:(lia) ltac:(lia)). specialize (b5 (i + mk) ltac:(lia) ltac:(lia)).
    replace (i + mk - mk) with i in * by lia. rewrite a5, b5. apply hsil.
    unfold end_of. destruct (le_lt_dec (length runs) (length med - (i + mk))) as [hle|hlt].
    + rewrite nth_overflow by auto. intros x [].
    + apply hr. apply nth_In. auto.
Qed.
Print Assumptions C56_scale_dynmsc.
Definition C56_dynmsc_case := C56_scale_dynmsc (L1 := Q) (L2 := Q) m6 m6q 6 d6 d6q (2 # 3) [0; 1; 3; 5] 1 10
  m6_diss m6q_diss m6q_times s64 k64 le244.
