(** P_GroupsMsc.v -- property C87: the algorithms based on the medoid silhouette on data which consist of well
    separated groups.  With two groups they find them in one pass from any start; with more they keep groups which are
    found, and pammedsil's own initialization finds them; but they may get stuck otherwise.
    Every theorem is followed by a concrete input which meets its hypotheses. *)
From Coq Require Import ZArith QArith Qabs Lqa Lia Permutation.
From Coq.Floats Require Import SpecFloat.
From Verif Require Import Base Num M_Mat M_Util M_Fasterpam M_Pam M_Alternating M_ParFasterpam M_Silhouette M_Msc M_Pammedsil M_Dynmsc
  Inst Hoare Spec SpecFacts Laws FloatFacts FloatSil FloatFmt FloatBuildMsc FloatMsc FloatMono FloatBuild MscAny PamShape PamExact PamFacts PamMain BuildFacts MscFacts MscMain DynExact ParFacts SilFacts Approx Reference Groups GroupSil GroupMsc
  Ex P_Fasterpam P_Pam P_Silhouette P_Msc P_MscBuild P_Dynmsc P_Float P_Bounded P_Approx P_Rounding P_Term P_FloatOpt P_FloatBuild P_FloatMsc P_FloatBuildMsc P_FloatPamsil P_Groups P_FloatGroups P_Evaluate.
From Verif Require P_Reference.
Open Scope nat_scope.

(** Two groups, with the largest distance [d] within a group and the smallest distance [s] between groups, and [n d / s]
    (and [n e]) well below 1; [q] is [d / s]. *)
Definition two_groups (n : nat) (v : diss) (g : nat -> nat) (q e : Q) : Prop :=
  exists d s, groups n 2 v g d s /\ alike n v g d /\ (0 < s)%Q /\ (q == d / s)%Q /\
    (inject_Z (Z.of_nat n) * (d / s + e) < s / (s + d))%Q.
(** Any number of groups; if there are more than two, with distances of at most [S], and [n d / s] (and [n e]) below [s / S]. *)
Definition even_groups (n k : nat) (v : diss) (g : nat -> nat) (q e : Q) : Prop :=
  exists d s x, groups n k v g d s /\ alike n v g d /\ (0 < s)%Q /\ (q == d / s)%Q /\
    ((k = 2 /\ x = (s / (s + d))%Q) \/ exists S, (forall i j, i < n -> j < n -> (v i j <= S)%Q) /\ x = (s / S)%Q) /\
    (inject_Z (Z.of_nat n) * (d / s + e) < x)%Q.

(** the clusters are the groups, and the value is close to 1 *)
Definition finds_groups {Lt} (val : Lt -> Q) (n : nat) (g : nat -> nat) (q : Q) (r : pam_result Lt) : Prop :=
  recovers n g (r_med r) (r_assi r) /\ (1 - q <= val (r_loss r) <= 1)%Q.

Lemma groups_close n k v g d s x e : dissimilarity n v -> groups n k v g d s -> 1 <= k -> (0 < s)%Q -> (0 <= e)%Q -> (x <= 1)%Q ->
  (inject_Z (Z.of_nat n) * (d / s + e) < x)%Q -> (inject_Z (Z.of_nat n) * d < s)%Q /\ (d < s)%Q.
Proof.
  intros hv hg hk hs he hx h. assert (hd : (0 <= d)%Q) by (apply (gr_d n k v g d s); auto).
  assert (hn : 1 <= n) by (apply (gr_n n k v g d s); auto).
  assert (hz : (1 <= inject_Z (Z.of_nat n))%Q) by (change 1%Q with (inject_Z 1); rewrite <- Zle_Qle; lia).
  assert (hds : (d == d / s * s)%Q) by (field; intros c; rewrite c in hs; lra).
  assert (hq : (0 <= d / s)%Q) by (apply Qle_shift_div_l; [exact hs|lra]).
  set (q := (d / s)%Q) in *. set (N := inject_Z (Z.of_nat n)) in *.
  assert (h1 : (N * q < 1)%Q) by nra. assert (h2 : (N * d < s)%Q).
  { rewrite hds. setoid_replace (N * (q * s))%Q with ((N * q) * s)%Q by ring. nra. }
  split; [exact h2|]. nra.
Qed.
Lemma two_le_one d s : (0 <= d)%Q -> (0 < s)%Q -> (s / (s + d) <= 1)%Q.
Proof. intros h1 h2. apply Qle_shift_div_r; lra. Qed.
Lemma even_le_one n k v g d s S : groups n k v g d s -> 2 <= k -> (0 < s)%Q -> (forall i j, i < n -> j < n -> (v i j <= S)%Q) -> (s / S <= 1)%Q.
Proof.
  intros hg hk hs hS. destruct hg as (_ & h1 & _ & h2). destruct (h1 0 ltac:(lia)) as (i & hi & ei).
  destruct (h1 1 ltac:(lia)) as (j & hj & ej). pose proof (h2 i j hi hj ltac:(lia)). pose proof (hS i j hi hj).
  apply Qle_shift_div_r; lra.
Qed.

(** what follows from it *)
Lemma even_facts n k v g q e : dissimilarity n v -> 2 <= k -> (0 <= e)%Q -> even_groups n k v g q e ->
  exists d s x, groups n k v g d s /\ alike n v g d /\ (q == d / s)%Q /\ (inject_Z (Z.of_nat n) * d < s)%Q /\ (d < s)%Q /\
    least_ratio n k v g x /\ (inject_Z (Z.of_nat n) * (d / s + e) < x)%Q /\ (inject_Z (Z.of_nat n) * (d / s) < x)%Q.
Proof.
  intros hv hk he (d & s & x & hg & ha & hs0 & hq & hx & hlt). exists d, s, x.
  assert (hd0 : (0 <= d)%Q) by (apply (gr_d n k v g d s); auto; lia).
  assert (hx1 : (x <= 1)%Q).
  { destruct hx as [[_ ->]|(S & hS & ->)]; [apply two_le_one; auto|apply (even_le_one n k v g d s S); auto]. }
  destruct (groups_close n k v g d s x e hv hg ltac:(lia) hs0 he hx1 hlt) as [hnd hds].
  repeat (split; [assumption|]). split; [|split; [exact hlt|]].
  - intros med i hl. destruct hx as [[-> ->]|(S & hS & ->)].
    + apply (missing_ratio_two n 2 v g d s hv hg (le_n 2) hs0); auto. lia.
    + apply (missing_ratio n k v g d s); auto. lia.
  - assert (hz : (0 <= inject_Z (Z.of_nat n))%Q) by (change 0%Q with (inject_Z 0); rewrite <- Zle_Qle; lia).
    set (N := inject_Z (Z.of_nat n)) in *. set (p := (d / s)%Q) in *. nra.
Qed.

Section Exact.
  Context {Nt Lt : Type} `{HLL : LossLaws Nt Lt}.
  Lemma covered_finds n k v g d s q (r : pam_result Lt) : dissimilarity n v -> groups n k v g d s -> 2 <= k -> (inject_Z (Z.of_nat n) * d < s)%Q ->
    (d < s)%Q -> (q == d / s)%Q -> msc_consistent n v k r -> (vL (r_loss r) == med_sil v n (r_med r))%Q -> (vL (r_loss r) <= 1)%Q ->
    covers n g (r_med r) -> finds_groups vL n g q r.
  Proof.
    intros hv hg hk hn hds hq ((m1 & m2 & m3) & _ & ha) hval h1 hc. split.
    - apply (covers_recovers n k v g d s hv hg ltac:(lia) hn); auto. lia.
    - split; [|exact h1]. rewrite hval, hq. apply (groups_med_sil n k v g d s hv hg hk hds); auto.
  Qed.
End Exact.

(** C87.  Two groups: one pass suffices, from any two medoids. *)
Theorem C87_two_groups {Nt Lt : Type} `{HLL : LossLaws Nt Lt} `{HAL : !AddLaws Nt} `{HDL : !DivLaws Nt Lt}
    (M : Mat Nt) n D g q med maxiter :
  diss_matrix M n D -> sizes n 2 -> medoids n 2 med -> two_groups n (vals D) g q 0 -> 1 <= maxiter ->
  forall m, In m [fastermsc M med maxiter; fastmsc M med maxiter; pammedsil_swap M med maxiter] ->
  exists r : pam_result Lt, m = Ok r /\ finds_groups vL n g q r.
Proof.
  intros hd hs hm (d & s & hg & ha & hs0 & hq & hlt) hi m hin.
  pose proof (proj2 (proj1 (emb_vals hd))) as hv. pose proof (proj1 hm) as hl.
  assert (hd0 : (0 <= d)%Q) by (apply (gr_d n 2 (vals D) g d s); auto).
  destruct (groups_close n 2 (vals D) g d s _ 0 hv hg ltac:(lia) hs0 ltac:(lra) (two_le_one d s hd0 hs0) hlt) as [hnd hds].
  assert (hlt' : (inject_Z (Z.of_nat n) * (d / s) < s / (s + d))%Q).
  { setoid_replace (d / s)%Q with (d / s + 0)%Q by lra. exact hlt. }
  assert (hs' : sizes n (length med)) by (rewrite hl; exact hs).
  assert (hm' : medoids n (length med) med) by (rewrite hl; exact hm).
  assert (hk' : 2 <= length med) by lia.
  destruct (C24_msc_value (Lt := Lt) M n D med maxiter hd hs' hm' hk') as (v1 & v2 & v3).
  destruct (C25_msc_consistent (Lt := Lt) M n D med maxiter hd hs' hm' hk') as (r1 & r2 & r3 & e1 & e2 & e3 & c1 & c2 & c3 & _).
  destruct (P_Reference.C54_msc_are_plain_searches (Lt := Lt) M n D med maxiter hd hs' hm' hk') as (f1 & f2 & f3).
  rewrite hl in c1, c2, c3. assert (hok : length med = 2 /\ forall m, In m med -> m < n) by (split; [exact hl|apply hm]).
  pose proof (eager_covers n (vals D) g d s hv hg ha hs0 hds hlt' maxiter med hok hi) as ke.
  pose proof (best_covers n (vals D) g d s hv hg ha hs0 hds hlt' maxiter med hok hi) as kb.
  assert (F : forall m x (r : pam_result Lt), m = Ok r -> value_is_medoid_silhouette M n (vals D) m -> msc_consistent n (vals D) 2 r ->
    P_Reference.finds x m -> covers n g (fst (fst x)) -> exists r, m = Ok r /\ finds_groups vL n g q r).
  { intros m0 x r -> (r' & val & e & w1 & w2 & _) hcons (r'' & e' & ex) hc. injection e as <-. injection e' as <-.
    exists r. split; [reflexivity|]. subst x. cbn [fst] in hc.
    apply (covered_finds n 2 (vals D) g d s q r); auto. apply w2. }
  cbn [In] in hin. destruct hin as [<-|[<-|[<-|[]]]].
  - exact (F _ _ r1 e1 v1 c1 f1 ke).
  - exact (F _ _ r2 e2 v2 c2 f2 kb).
  - exact (F _ _ r3 e3 v3 c3 f3 kb).
Qed.
Print Assumptions C87_two_groups.

(** Any number of groups, with similar distances between them: medoids in all groups stay in all groups, whatever the
    iteration limit. *)
Theorem C87_kept {Nt Lt : Type} `{HLL : LossLaws Nt Lt} `{HAL : !AddLaws Nt} `{HDL : !DivLaws Nt Lt}
    (M : Mat Nt) n D g q med maxiter :
  diss_matrix M n D -> sizes n (length med) -> medoids n (length med) med -> 2 <= length med ->
  even_groups n (length med) (vals D) g q 0 -> covers n g med ->
  forall m, In m [fastermsc M med maxiter; fastmsc M med maxiter; pammedsil_swap M med maxiter] ->
  exists r : pam_result Lt, m = Ok r /\ finds_groups vL n g q r.
Proof.
  intros hd hs hm hk hev hc m hin. pose proof (proj2 (proj1 (emb_vals hd))) as hv.
  destruct (even_facts n (length med) (vals D) g q 0 hv hk (Qle_refl 0) hev) as (d & s & x & hg & ha & hq & hnd & hds & hx & hlt & _).
  destruct (C24_msc_value (Lt := Lt) M n D med maxiter hd hs hm hk) as (v1 & v2 & v3).
  destruct (C25_msc_consistent (Lt := Lt) M n D med maxiter hd hs hm hk) as (r1 & r2 & r3 & e1 & e2 & e3 & c1 & c2 & c3 & _).
  destruct (C26_fastermsc_local_optimum (Lt := Lt) M n D med maxiter hd hs hm hk) as (t1 & f1 & k1 & _).
  destruct (C28_steepest_descent (Lt := Lt) M n D med maxiter hd hs hm hk) as (t2 & t3 & f2 & f3 & (k2 & _) & (k3 & _)).
  rewrite e1 in f1. injection f1 as <-. rewrite e2 in f2. injection f2 as <-. rewrite e3 in f3. injection f3 as <-.
  assert (F : forall m (r : pam_result Lt), m = Ok r -> value_is_medoid_silhouette M n (vals D) m -> msc_consistent n (vals D) (length med) r ->
    (med_sil (vals D) n med <= med_sil (vals D) n (r_med r))%Q -> exists r, m = Ok r /\ finds_groups vL n g q r).
  { intros m0 r -> (r' & val & e & w1 & w2 & _) hcons hle. injection e as <-.
    exists r. split; [reflexivity|]. pose proof hcons as ((m1 & m2 & m3) & _).
    apply (covered_finds n (length med) (vals D) g d s q r); auto; [apply w2|].
    apply (kept_covers n (length med) (vals D) g d s hv hg hk hds x 0 med); auto; [apply hm|lra]. }
  cbn [In] in hin. destruct hin as [<-|[<-|[<-|[]]]].
  - exact (F _ r1 e1 v1 c1 k1).
  - exact (F _ r2 e2 v2 c2 k2).
  - exact (F _ r3 e3 v3 c3 k3).
Qed.
Print Assumptions C87_kept.

(** pammedsil finds the groups whatever the iteration limit, if object 0, which its BUILD leaves out, is not alone in
    its group; and with one iteration at least, if it found the right number of medoids. *)
Theorem C87_pammedsil {Nt Lt : Type} `{HLL : LossLaws Nt Lt} `{HAL : !AddLaws Nt} `{HDL : !DivLaws Nt Lt}
    (M : Mat Nt) n D g q k maxiter :
  diss_matrix M n D -> sizes n k -> 2 <= k -> even_groups n k (vals D) g q 0 ->
  exists r : pam_result Lt, pammedsil M k maxiter = Ok r /\
    (not_alone n g \/ (length (r_med r) = k /\ 1 <= maxiter) -> finds_groups vL n g q r).
Proof.
  intros hd hs hk hev. pose proof (proj2 (proj1 (emb_vals hd))) as hv.
  destruct (even_facts n k (vals D) g q 0 hv hk (Qle_refl 0) hev) as (d & s & x & hg & ha & hq & hnd & hds & hx & _ & hlt).
  destruct (C32_build_greedy_but_0 (Lt := Lt) M n D k maxiter hd hs) as (ms & r & r' & e & e' & (g1 & g2 & _ & _ & g5) & h2 & h3 & h4 & h5 & _).
  exists r. split; [exact e|]. intros hc.
  assert (h4' : forall i y, i < length ms -> y < n -> i = 0 \/ y <> 0 ->
    (tdev (vals D) n (firstn (S i) ms) <= tdev (vals D) n (firstn i ms ++ [y]) + 0)%Q).
  { intros i y hi hy hc'. specialize (h4 i y hi hy hc'). lra. }
  assert (hk1 : 1 <= k) by lia. assert (hnd' : (inject_Z (Z.of_nat n) * d + 0 < s)%Q) by lra.
  assert (hin : forall m, In m ms -> m < n) by apply h3.
  assert (hsl : sizes n (length ms)) by (destruct hs as (a1 & a2 & a3); split; [lia|split; [auto|lia]]).
  assert (hl : length ms = k).
  { destruct hc as [h0|[hlen _]].
    - apply (greedy_but_0_covers n k (vals D) g d s hv hg hk1 ha ms 0 h0 hin ltac:(lra) hnd' h2 h5 h4').
    - rewrite g1 in hlen. destruct (Nat.eq_dec (length ms) 1) as [hl1|hl1].
      + exfalso. destruct ms as [|y [|]]; simpl in hl1; try lia. assert (hy : y < n) by (apply hin; simpl; auto).
        destruct (msc_single (Lt := Lt) (proj1 hd) maxiter hsl hy) as (_ & _ & hx'). rewrite hx' in e'.
        destruct (single_returns (Lt := Lt) (proj1 hd) hy) as (q' & eq & q1 & _). rewrite e' in eq. injection eq as <-. lia.
      + destruct (C25_msc_consistent (Lt := Lt) M n D ms maxiter hd hsl h3 ltac:(lia)) as (r1 & r2 & r3 & _ & _ & e3 & _ & _ & c3 & _).
        rewrite e' in e3. injection e3 as <-. rewrite <- hlen. symmetry. apply c3. }
  unfold finds_groups in *. rewrite g1, g2, g5.
  destruct (covers_dec n k g hk1 ms) as [hcov|(i & hi & hm)].
  - rewrite <- hl in hev, hk.
    destruct (C87_kept (Lt := Lt) M n D g q ms maxiter hd hsl h3 hk hev hcov _ (or_intror (or_intror (or_introl eq_refl)))) as (t & et & hf).
    rewrite e' in et. injection et as <-. exact hf.
  - destruct hc as [h0|[_ hi1]].
    { exfalso. destruct (greedy_but_0_covers n k (vals D) g d s hv hg hk1 ha ms 0 h0 hin ltac:(lra) hnd' h2 h5 h4') as [_ hcov].
      destruct (hcov i hi) as (m & b1 & b2). apply (hm m b1 b2). }
    pose proof (greedy_two n k (vals D) g d s hv hg hk1 ha ms 0 i hin hnd' hl hi h4' hm) as hsw.
    pose proof (descent_finds n k (vals D) g d s x hv hg hk hds hx hlt maxiter ms (k - 1) i (conj hl hin) hi1 hi ltac:(lia) hm hsw) as hcov.
    assert (hk' : 2 <= length ms) by lia.
    destruct (C24_msc_value (Lt := Lt) M n D ms maxiter hd hsl h3 hk') as (_ & _ & (t & val & et & w1 & w2 & _)).
    destruct (C25_msc_consistent (Lt := Lt) M n D ms maxiter hd hsl h3 hk') as (_ & _ & r3 & _ & _ & e3 & _ & _ & c3 & _).
    destruct (P_Reference.C54_msc_are_plain_searches (Lt := Lt) M n D ms maxiter hd hsl h3 hk') as (_ & _ & (r4 & e4 & ex)).
    rewrite e' in et. injection et as <-. rewrite e' in e3. injection e3 as <-. rewrite e' in e4. injection e4 as <-.
    rewrite <- ex in hcov. cbn [fst] in hcov. rewrite hl in c3.
    apply (covered_finds n k (vals D) g d s q r'); auto. apply w2.
Qed.
Print Assumptions C87_pammedsil.

(** Binary64: two groups, once fastmsc or PAMMEDSIL's swap phase stop before the limit. *)
Theorem C87_f64_two_groups {Nt : Type} `{HO : OrdLaws Nt} `{HF : FromN Nt f64} (M : Mat Nt) n D g q med maxiter :
  diss_matrix M n D -> exact_from n D -> adds_near n D -> sizes n 2 -> medoids n 2 med -> distinct_objects n (vals D) ->
  two_groups n (vals D) g q (2 * sil_error n) ->
  forall m, In m [fastmsc M med maxiter; pammedsil_swap M med maxiter] ->
  exists r : pam_result f64, m = Ok r /\
    (r_iter r < maxiter -> recovers n g (r_med r) (r_assi r) /\
      (1 - q <= med_sil (vals D) n (r_med r) <= 1)%Q /\ off_by (2 * sil_error n) (med_sil (vals D) n (r_med r)) (r_loss r)).
Proof.
  intros hd he hadd hs hm hdist (d & s & hg & ha & hs0 & hq & hlt) m hin.
  pose proof (proj2 (proj1 (emb_vals hd))) as hv. pose proof (proj1 hm) as hl.
  assert (hd0 : (0 <= d)%Q) by (apply (gr_d n 2 (vals D) g d s); auto).
  assert (hE : (0 <= sil_error n)%Q).
  { unfold sil_error. apply Qmult_le_0_compat; [change 0%Q with (inject_Z 0); rewrite <- Zle_Qle; lia|vm_compute; discriminate]. }
  destruct (groups_close n 2 (vals D) g d s _ (2 * sil_error n) hv hg ltac:(lia) hs0 ltac:(lra) (two_le_one d s hd0 hs0) hlt) as [hnd hds].
  assert (hs' : sizes n (length med)) by (rewrite hl; exact hs).
  assert (hm' : medoids n (length med) med) by (rewrite hl; exact hm).
  assert (hk' : 2 <= length med) by lia.
  destruct (C63_fastmsc_pammedsil M n D med maxiter hd he hadd hs' hm' hk') as (r1 & r2 & e1 & e2 & h).
  assert (z1 : lltb (lzero : f64) lzero = false) by reflexivity. assert (z2 : lltb (lzero : f64) (ladd lzero lzero) = false) by reflexivity.
  destruct (C40_medoid_silhouette (Lt := f64) M n D med maxiter hd hs' hm' hk' z1 z2) as [(t2 & f2 & w2) hmsc].
  destruct (hmsc (or_intror hdist)) as (_ & t1 & _ & f1 & _ & w1).
  rewrite e1 in f1. injection f1 as <-. rewrite e2 in f2. injection f2 as <-. rewrite hl in w1, w2.
  assert (F : forall r : pam_result f64, r = r1 \/ r = r2 -> well_assigned n 2 (vals D) r -> r_iter r < maxiter ->
    recovers n g (r_med r) (r_assi r) /\ (1 - q <= med_sil (vals D) n (r_med r) <= 1)%Q /\
    off_by (2 * sil_error n) (med_sil (vals D) n (r_med r)) (r_loss r)).
  { intros r hr ((m1 & m2 & m3) & _ & wa & _) hit. destruct (h r hr) as (_ & hoff & hst).
    destruct (hst hit) as (med0 & (l0 & _ & i0) & hnear & _ & habs & _). rewrite hl in l0.
    pose proof (optimal_high n (vals D) g d s hv hg hds med0 (sil_error n) hE l0 i0 hnear) as hhigh.
    assert (hhi : (1 - d / s - 2 * sil_error n <= med_sil (vals D) n (r_med r))%Q).
    { pose proof (Qabs_Qle_condition (med_sil (vals D) n (r_med r) - med_sil (vals D) n med0) (sil_error n)) as hc.
      destruct hc as [hc _]. specialize (hc habs). lra. }
    assert (hc : covers n g (r_med r)).
    { apply (high_covers n 2 (vals D) g hv (le_n 2) (s / (s + d))); auto; [apply two_least_ratio; auto|].
      assert (hz : (0 <= inject_Z (Z.of_nat n))%Q) by (change 0%Q with (inject_Z 0); rewrite <- Zle_Qle; lia).
      assert (hmul : (inject_Z (Z.of_nat n) * (1 - med_sil (vals D) n (r_med r)) <= inject_Z (Z.of_nat n) * (d / s + 2 * sil_error n))%Q); [|lra].
      rewrite !(Qmult_comm (inject_Z (Z.of_nat n))). apply Qmult_le_compat_r; [lra|exact hz]. }
    split; [apply (covers_recovers n 2 (vals D) g d s hv hg ltac:(lia) hnd); auto; lia|].
    split; [|exact hoff]. split.
    - rewrite hq. apply (groups_med_sil n 2 (vals D) g d s hv hg (le_n 2) hds); auto.
    - apply SortFacts.med_sil_range; [destruct hs; lia|lia|]. intros o y ho hy. apply (proj2 hv); auto. }
  cbn [In] in hin. destruct hin as [<-|[<-|[]]]; [exists r1|exists r2]; (split; [assumption|]); apply F; auto.
Qed.
Print Assumptions C87_f64_two_groups.

(** Binary64: groups once found are kept; the medoids of fastermsc, fastmsc and PAMMEDSIL's swap phase for any limit. *)
Theorem C87_f64_kept {Nt : Type} `{HO : OrdLaws Nt} `{HF : FromN Nt f64} (M : Mat Nt) n D g q med maxiter :
  diss_matrix M n D -> exact_from n D -> adds_near n D -> sizes n (length med) -> medoids n (length med) med -> 2 <= length med ->
  3 <= length med \/ distinct_objects n (vals D) ->
  even_groups n (length med) (vals D) g q (inject_Z (Z.of_nat n + 1) * sil_error n) -> covers n g med ->
  forall m, In m [fastermsc M med maxiter; fastmsc M med maxiter; pammedsil_swap M med maxiter] ->
  exists r : pam_result f64, m = Ok r /\ recovers n g (r_med r) (r_assi r) /\
    (1 - q <= med_sil (vals D) n (r_med r) <= 1)%Q /\ off_by (2 * sil_error n) (med_sil (vals D) n (r_med r)) (r_loss r).
Proof.
  intros hd he hadd hs hm hk hdist hev hc m hin. pose proof (proj2 (proj1 (emb_vals hd))) as hv.
  assert (hE : (0 <= sil_error n)%Q).
  { unfold sil_error. apply Qmult_le_0_compat; [change 0%Q with (inject_Z 0); rewrite <- Zle_Qle; lia|vm_compute; discriminate]. }
  assert (hn2 : (2 <= inject_Z (Z.of_nat n + 1))%Q) by (change 2%Q with (inject_Z 2); rewrite <- Zle_Qle; destruct hs; lia).
  assert (hE2 : (2 * sil_error n <= inject_Z (Z.of_nat n + 1) * sil_error n)%Q) by (apply Qmult_le_compat_r; auto).
  destruct (even_facts n (length med) (vals D) g q (inject_Z (Z.of_nat n + 1) * sil_error n) hv hk ltac:(lra) hev) as (d & s & x & hg & ha & hq & hnd & hds & hx & hlt & _).
  destruct (C63_fastmsc_pammedsil M n D med maxiter hd he hadd hs hm hk) as (r1 & r2 & e1 & e2 & h).
  destruct (C63_fastermsc M n D med maxiter hd he hadd hs hm hk) as (r0 & e0 & h0 & h0' & _).
  assert (z1 : lltb (lzero : f64) lzero = false) by reflexivity. assert (z2 : lltb (lzero : f64) (ladd lzero lzero) = false) by reflexivity.
  destruct (C40_medoid_silhouette (Lt := f64) M n D med maxiter hd hs hm hk z1 z2) as [(t2 & f2 & w2) hmsc].
  destruct (hmsc hdist) as (t0 & t1 & f0 & f1 & w0 & w1).
  rewrite e0 in f0. injection f0 as <-. rewrite e1 in f1. injection f1 as <-. rewrite e2 in f2. injection f2 as <-.
  assert (F : forall r : pam_result f64, well_assigned n (length med) (vals D) r ->
    (med_sil (vals D) n med <= med_sil (vals D) n (r_med r) + inject_Z (Z.of_nat n + 1) * sil_error n)%Q ->
    recovers n g (r_med r) (r_assi r) /\ (1 - q <= med_sil (vals D) n (r_med r) <= 1)%Q).
  { intros r ((m1 & m2 & m3) & _ & wa & _) hle.
    assert (hcr : covers n g (r_med r)).
    { apply (kept_covers n (length med) (vals D) g d s hv hg hk hds x (inject_Z (Z.of_nat n + 1) * sil_error n) med); auto; [apply hm|lra]. }
    split; [apply (covers_recovers n (length med) (vals D) g d s hv hg ltac:(lia) hnd); auto; lia|]. split.
    - rewrite hq. apply (groups_med_sil n (length med) (vals D) g d s hv hg hk hds); auto.
    - apply SortFacts.med_sil_range; [destruct hs; lia|lia|]. intros o y ho hy. apply (proj2 hv); auto. }
  cbn [In] in hin. destruct hin as [<-|[<-|[<-|[]]]]; eexists; (split; [eassumption|]).
  - destruct (F r0 w0 h0) as [p1 p2]. split; [exact p1|]. split; [exact p2|]. apply off_by_mono with (2 := h0'). lra.
  - destruct (h r1 (or_introl eq_refl)) as (a1 & a2 & _). destruct (F r1 w1 ltac:(lra)) as [p1 p2]. auto.
  - destruct (h r2 (or_intror eq_refl)) as (a1 & a2 & _). destruct (F r2 w2 ltac:(lra)) as [p1 p2]. auto.
Qed.
Print Assumptions C87_f64_kept.

(** Binary64: pammedsil, if BUILD's rounding errors do not matter either; whatever the limit. *)
Theorem C87_f64_pammedsil {Nt : Type} `{HO : OrdLaws Nt} `{HF : FromN Nt f64} (M : Mat Nt) n D g q k maxiter mx :
  diss_matrix M n D -> exact_from n D -> at_most n D mx -> sizes n k -> 2 <= k ->
  even_groups n k (vals D) g q (2 * sil_error n) -> separated n k (vals D) g (rounding n mx) -> not_alone n g ->
  exists r : pam_result f64, pammedsil M k maxiter = Ok r /\ recovers n g (r_med r) (r_assi r) /\
    (1 - q <= med_sil (vals D) n (r_med r) <= 1)%Q /\ off_by (2 * sil_error n) (med_sil (vals D) n (r_med r)) (r_loss r).
Proof.
  intros hd he hmx hs hk hev (d' & s' & hg' & ha' & hse) h0. pose proof (proj2 (proj1 (emb_vals hd))) as hv.
  assert (hE : (0 <= sil_error n)%Q).
  { unfold sil_error. apply Qmult_le_0_compat; [change 0%Q with (inject_Z 0); rewrite <- Zle_Qle; lia|vm_compute; discriminate]. }
  destruct (even_facts n k (vals D) g q (2 * sil_error n) hv hk ltac:(lra) hev) as (d & s & x & hg & ha & hq & hnd & hds & hx & hlt & _).
  assert (hr : (0 <= rounding n mx)%Q).
  { assert (hn : 1 <= n) by (destruct hs; lia). pose proof (proj2 hmx 0 0 hn hn) as h1. pose proof (proj2 hv 0 0 hn hn) as h2.
    assert (h3 : (0 <= mx)%Q) by (eapply Qle_trans; [exact h2|exact h1]).
    unfold rounding. apply Qmult_le_0_compat; [apply Qmult_le_0_compat|vm_compute; discriminate]; [|exact h3].
    change 0%Q with (inject_Z 0). rewrite <- Zle_Qle. nia. }
  destruct (C65_pammedsil M n D k maxiter mx hd he hmx hs) as (ms & r & e & hl & hm & hgr & hend & h2 & _).
  destruct (greedy_but_0_covers n k (vals D) g d' s' hv hg' ltac:(lia) ha' ms (rounding n mx) h0 (proj2 (proj2 hm)) hr hse hl hend hgr) as [hlk hc].
  destruct (h2 ltac:(lia)) as (((c1 & _ & c2) & _ & wa & _) & _ & hle & hoff & _). rewrite hlk in c1. exists r. split; [exact e|].
  assert (hcr : covers n g (r_med r)).
  { apply (kept_covers n k (vals D) g d s hv hg hk hds x (2 * sil_error n) ms); auto; [apply hm|lra]. }
  split; [apply (covers_recovers n k (vals D) g d s hv hg ltac:(lia) hnd); auto; lia|]. split; [|exact hoff]. split.
  - rewrite hq. apply (groups_med_sil n k (vals D) g d s hv hg hk hds); auto.
  - apply SortFacts.med_sil_range; [destruct hs; lia|lia|]. intros o y ho hy. apply (proj2 hv); auto.
Qed.
Print Assumptions C87_f64_pammedsil.

(** ** Concrete inputs *)
Lemma two_entries n v g d s e : sepQ_b n 2 v g d s 0 = true -> Qlt_bool 0 s = true ->
  Qlt_bool (inject_Z (Z.of_nat n) * (d / s + e)) (s / (s + d)) = true -> two_groups n v g (d / s) e.
Proof.
  intros h h0 hlt. destruct (sep_entries_at n 2 v g d s 0 h) as (h1 & h2 & _). apply Qlt_bool_iff in h0, hlt.
  exists d, s. repeat (split; [assumption|]). split; [reflexivity|exact hlt].
Qed.
Lemma even_entries n k v g d s S e : sepQ_b n k v g d s 0 = true -> Qlt_bool 0 s = true ->
  forallb (fun i => forallb (fun j => Qle_bool (v i j) S) (seq 0 n)) (seq 0 n) = true ->
  Qlt_bool (inject_Z (Z.of_nat n) * (d / s + e)) (s / S) = true -> even_groups n k v g (d / s) e.
Proof.
  intros h h0 hb hlt. destruct (sep_entries_at n k v g d s 0 h) as (h1 & h2 & _). apply Qlt_bool_iff in h0, hlt.
  exists d, s, (s / S)%Q. repeat (split; [assumption|]). split; [reflexivity|]. split; [right|exact hlt].
  exists S. split; [|reflexivity]. intros i j hi hj. rewrite forallb_forall in hb.
  specialize (hb i (proj2 (in_seq _ _ _) (ltac:(lia) : 0 <= i < 0 + n))). rewrite forallb_forall in hb.
  apply Qle_bool_iff, hb, in_seq. lia.
Qed.

(** two groups of two and three objects; both initial medoids in one of them *)
Definition rows_2g : list (list Z) := line [100; 0; 102; 2; 1]%Z.
Definition grp2 (i : nat) : nat := nth i [1; 0; 1; 0; 0] 0.
Lemma g2_diss : diss_matrix (mat_of_rows rows_2g) 5 (entries rows_2g).
Proof. apply rows_diss; [lia|reflexivity]. Qed.
Lemma g2_two : two_groups 5 (vals (entries rows_2g)) grp2 (2 / 98) 0.
Proof. apply two_entries; vm_compute; reflexivity. Qed.
Lemma k13 : medoids 5 2 [1; 3].
Proof. apply meds_ok. reflexivity. Qed.
Definition C87_two_case := C87_two_groups (Lt := Q) (mat_of_rows rows_2g) 5 (entries rows_2g) grp2 (2 / 98) [1; 3] 1
  g2_diss s52 k13 g2_two (le_n 1).
Example C87_two_value : exists r : pam_result Q, fastermsc (mat_of_rows rows_2g) [1; 3] 1 = Ok r /\ r_assi r = [0; 1; 0; 1; 1].
Proof. eexists. split; vm_compute; reflexivity. Qed.

(** three groups of two objects *)
Definition rows_3g : list (list Z) := line [100; 0; 200; 2; 102; 201]%Z.
Lemma g3_diss : diss_matrix (mat_of_rows rows_3g) 6 (entries rows_3g).
Proof. apply rows_diss; [lia|reflexivity]. Qed.
Lemma g3_even : even_groups 6 3 (vals (entries rows_3g)) pairs6 (2 / 98) 0.
Proof. apply even_entries with (S := 201%Q); vm_compute; reflexivity. Qed.
Lemma g3_covers : covers 6 pairs6 [1; 2; 4].
Proof.
  intros i hi. do 6 (destruct i; [first [exists 1; split; [simpl; tauto|reflexivity]|exists 2; split; [simpl; tauto|reflexivity]
    |exists 4; split; [simpl; tauto|reflexivity]]|]). lia.
Qed.
Lemma pairs_not_alone : not_alone 6 pairs6.
Proof. exists 4. split; [lia|reflexivity]. Qed.
Definition C87_kept_case := C87_kept (Lt := Q) (mat_of_rows rows_3g) 6 (entries rows_3g) pairs6 (2 / 98) [1; 2; 4] 10
  g3_diss s63 k123 le23 g3_even g3_covers.
Definition C87_pammedsil_case := C87_pammedsil (Lt := Q) (mat_of_rows rows_3g) 6 (entries rows_3g) pairs6 (2 / 98) 3 0 g3_diss s63 le23 g3_even.
Example C87_pammedsil_value : exists r : pam_result Q, pammedsil (mat_of_rows rows_3g) 3 0 = Ok r /\ r_assi r = [0; 2; 1; 2; 0; 1].
Proof. eexists. split; vm_compute; reflexivity. Qed.
(** ... and with object 0 alone in its group, in which case one iteration is needed *)
Definition rows_a : list (list Z) := line [300; 0; 200; 2; 100; 201]%Z.
Definition alone6 (i : nat) : nat := nth i [3; 0; 2; 0; 1; 2] 0.
Lemma a_diss : diss_matrix (mat_of_rows rows_a) 6 (entries rows_a).
Proof. apply rows_diss; [lia|reflexivity]. Qed.
Lemma a_even : even_groups 6 4 (vals (entries rows_a)) alone6 (2 / 98) 0.
Proof. apply even_entries with (S := 300%Q); vm_compute; reflexivity. Qed.
Lemma s64 : sizes 6 4.
Proof. apply sizes_ok. reflexivity. Qed.
Definition C87_alone_case := C87_pammedsil (Lt := Q) (mat_of_rows rows_a) 6 (entries rows_a) alone6 (2 / 98) 4 1 a_diss s64
  (le_S _ _ (le_S _ _ (le_n 2))) a_even.
Example C87_alone_value : exists r r0 : pam_result Q, pammedsil (mat_of_rows rows_a) 4 1 = Ok r /\ length (r_med r) = 4 /\
  pammedsil (mat_of_rows rows_a) 4 0 = Ok r0 /\ map alone6 (r_med r0) <> map alone6 (r_med r).
Proof. do 2 eexists. split; [vm_compute; reflexivity|]. split; [reflexivity|]. split; [vm_compute; reflexivity|]. vm_compute. discriminate. Qed.

(** binary64, in tenths *)
Definition rows_2gf : list (list f64) := Eval vm_compute in map (map tenth) rows_2g.
Lemma g2f_diss : diss_matrix (mat_of_rows rows_2gf) 5 (fentries rows_2gf).
Proof. apply frows_diss; [lia|vm_compute; reflexivity]. Qed.
Lemma g2f_adds : adds_near 5 (fentries rows_2gf).
Proof.
  apply (f64_adds_near (diss_nonneg _ _ _ g2f_diss)). intros x y hx hy.
  do 5 (destruct x; [do 5 (destruct y; [vm_compute; discriminate|]); lia|]). lia.
Qed.
Lemma g2f_distinct : distinct_objects 5 (vals (fentries rows_2gf)).
Proof.
  intros x y hx hy hne. do 5 (destruct x; [do 5 (destruct y; [try (exfalso; lia); vm_compute; reflexivity|]); lia|]). lia.
Qed.
Lemma g2f_two : two_groups 5 (vals (fentries rows_2gf)) grp2 ((21 # 100) / (97 # 10)) (2 * sil_error 5).
Proof. apply two_entries; vm_compute; reflexivity. Qed.
Definition C87_f64_two_case := C87_f64_two_groups _ 5 _ grp2 _ [1; 3] 10 g2f_diss (f64_exact_from _ _ _ (diss_nonneg _ _ _ g2f_diss))
  g2f_adds s52 k13 g2f_distinct g2f_two.
Example C87_f64_two_value : exists r : pam_result f64, fastmsc (mat_of_rows rows_2gf) [1; 3] 10 = Ok r /\ r_iter r < 10 /\ r_assi r = [1; 0; 1; 0; 0].
Proof. eexists. split; [vm_compute; reflexivity|]. cbn [r_iter r_assi]. split; [lia|reflexivity]. Qed.

Definition rows_3gf : list (list f64) := Eval vm_compute in map (map tenth) rows_3g.
Lemma g3f_diss : diss_matrix (mat_of_rows rows_3gf) 6 (fentries rows_3gf).
Proof. apply frows_diss; [lia|vm_compute; reflexivity]. Qed.
Lemma g3f_adds : adds_near 6 (fentries rows_3gf).
Proof.
  apply (f64_adds_near (diss_nonneg _ _ _ g3f_diss)). intros x y hx hy.
  do 6 (destruct x; [do 6 (destruct y; [vm_compute; discriminate|]); lia|]). lia.
Qed.
Lemma g3f_at_most : at_most 6 (fentries rows_3gf) 21.
Proof.
  split; [vm_compute; discriminate|]. intros x y hx hy.
  do 6 (destruct x; [do 6 (destruct y; [vm_compute; discriminate|]); lia|]). lia.
Qed.
Lemma g3f_even e : Qle_bool e (1 # 1000) = true -> even_groups 6 3 (vals (fentries rows_3gf)) pairs6 ((21 # 100) / (97 # 10)) e.
Proof.
  intros he. apply Qle_bool_iff in he.
  destruct (even_entries 6 3 (vals (fentries rows_3gf)) pairs6 (21 # 100) (97 # 10) 21 (1 # 1000)) as (d & s & x & h1 & h2 & h3 & h4 & h5 & h6);
    try (vm_compute; reflexivity).
  exists d, s, x. repeat (split; [assumption|]). change (inject_Z (Z.of_nat 6)) with 6%Q in *. lra.
Qed.
Lemma g3f_sep : separated 6 3 (vals (fentries rows_3gf)) pairs6 (rounding 6 21).
Proof. apply sep_entries with (d := (21 # 100)%Q) (s := (97 # 10)%Q). vm_compute. reflexivity. Qed.
Definition C87_f64_kept_case := C87_f64_kept _ 6 _ pairs6 _ [1; 2; 4] 10 g3f_diss (f64_exact_from _ _ _ (diss_nonneg _ _ _ g3f_diss))
  g3f_adds s63 k123 le23 (or_introl (le_n 3)) (g3f_even (inject_Z (Z.of_nat 6 + 1) * sil_error 6) eq_refl) g3_covers.
Definition C87_f64_pammedsil_case := C87_f64_pammedsil _ 6 _ pairs6 _ 3 10 21 g3f_diss (f64_exact_from _ _ _ (diss_nonneg _ _ _ g3f_diss))
  g3f_at_most s63 le23 (g3f_even (2 * sil_error 6) eq_refl) g3f_sep pairs_not_alone.

(** ** What does not hold *)

(** From medoids which do not cover the groups, three groups need not be found: one group of three pairs and two single
    objects, all groups equally far apart.  The three algorithms stop at once at the medoids of the three pairs, although
    there are medoids with a much better silhouette. *)
Definition rows_stuck : list (list Z) :=
  map (fun i => map (fun j => if Nat.eqb i j then 0%Z else if Nat.ltb (Nat.max i j) 6 then (if Nat.eqb (i / 2) (j / 2) then 1%Z else 10%Z) else 10000%Z)
    (seq 0 8)) (seq 0 8).
Definition grp_stuck (i : nat) : nat := i - 5.
Theorem C87_stuck_refuted : exists (M : Mat Z) D g med, diss_matrix M 8 D /\ metric 8 (vals D) /\ even_groups 8 3 (vals D) g (10 / 10000) 0 /\
  medoids 8 3 med /\ ~ covers 8 g med /\ (med_sil (vals D) 8 med < 3 # 4)%Q /\
  (exists med', medoids 8 3 med' /\ (999 # 1000 < med_sil (vals D) 8 med')%Q) /\
  forall m : res (pam_result Q), In m [fastermsc M med 10; fastmsc M med 10; pammedsil_swap M med 10] ->
    exists r, m = Ok r /\ r_med r = med /\ r_iter r = 1.
Proof.
  exists (mat_of_rows rows_stuck), (entries rows_stuck), grp_stuck, [0; 2; 4].
  split; [apply rows_diss; [lia|reflexivity]|]. split; [apply rows_metric; [lia|vm_compute; reflexivity..]|].
  split; [apply even_entries with (S := 10000%Q); vm_compute; reflexivity|].
  split; [apply meds_ok; reflexivity|]. split.
  { intros h. destruct (h 6 ltac:(lia)) as (m & hm & e). simpl in hm. destruct hm as [<-|[<-|[<-|[]]]]; discriminate e. }
  split; [vm_compute; reflexivity|]. split.
  { exists [0; 6; 7]. split; [apply meds_ok; reflexivity|vm_compute; reflexivity]. }
  intros m hin. cbn [In] in hin. destruct hin as [<-|[<-|[<-|[]]]]; eexists; (split; [vm_compute; reflexivity|split; reflexivity]).
Qed.
Print Assumptions C87_stuck_refuted.

(** Even pammedsil, whose initialization finds the groups, may leave them again if some groups are much farther away than others:
    the medoid silhouette is better with two medoids in the remote group and none in one of the two others. *)
Definition rows_remote : list (list Z) := line [1000000000; 1000000010; 1000; 1010; 0]%Z.
Definition grp_remote (i : nat) : nat := nth i [0; 0; 1; 1; 2] 0.
Theorem C87_remote_refuted : exists (M : Mat Z) D g (r0 r : pam_result Q), diss_matrix M 5 D /\ metric 5 (vals D) /\
  separated 5 3 (vals D) g 0 /\ not_alone 5 g /\
  pammedsil M 3 0 = Ok r0 /\ covers 5 g (r_med r0) /\
  pammedsil M 3 10 = Ok r /\ r_iter r < 10 /\ ~ covers 5 g (r_med r) /\
  (med_sil (vals D) 5 (r_med r0) < med_sil (vals D) 5 (r_med r))%Q.
Proof.
  exists (mat_of_rows rows_remote), (entries rows_remote), grp_remote. do 2 eexists.
  split; [apply rows_diss; [lia|reflexivity]|]. split; [apply rows_metric; [lia|vm_compute; reflexivity..]|].
  split; [apply sep_entries with (d := 10%Q) (s := 1000%Q); vm_compute; reflexivity|].
  split; [exists 1; split; [lia|reflexivity]|].
  split; [vm_compute; reflexivity|]. cbn [r_med]. split.
  { intros i hi. do 5 (destruct i; [first [exists 0; split; [simpl; tauto|reflexivity]|exists 1; split; [simpl; tauto|reflexivity]
    |exists 2; split; [simpl; tauto|reflexivity]|exists 3; split; [simpl; tauto|reflexivity]|exists 4; split; [simpl; tauto|reflexivity]]|]). lia. }
  split; [vm_compute; reflexivity|]. cbn [r_med r_iter]. split; [lia|]. split.
  { intros h. destruct (h 4 ltac:(lia)) as (m & hm & e). simpl in hm. repeat (destruct hm as [<-|hm]; [discriminate e|]). destruct hm. }
  vm_compute. reflexivity.
Qed.
Print Assumptions C87_remote_refuted.
