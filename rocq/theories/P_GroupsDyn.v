(** P_GroupsDyn.v -- property C88: DynMSC and the number of groups.  If the data consist of well separated groups, the
    average medoid silhouette is close to 1 for the right number of medoids only; so DynMSC returns the groups whenever one of
    its searches finds them.  For two groups this is always so; for more it is if the initial medoids are one of each group.
    Every theorem is followed by a concrete input which meets its hypotheses. *)
From Coq Require Import ZArith QArith Qabs Lqa Lia Permutation.
From Coq.Floats Require Import SpecFloat.
From Verif Require Import Base Num M_Mat M_Util M_Fasterpam M_Silhouette M_Msc M_Dynmsc
  Inst Hoare Spec SpecFacts Laws FloatFacts FloatRound FloatSil FloatLoss FloatFmt FloatSwap FloatMsc FloatMsc2 FloatBuildMsc FloatDyn
  MscFacts MscMain DynShape DynFacts DynExact PamShape SortFacts Reference ReferenceDyn Groups GroupSil GroupMsc GroupDyn
  Ex P_Fasterpam P_Msc P_Dynmsc P_Float P_Bounded P_Approx P_Rounding P_FloatOpt P_FloatBuild P_FloatMsc P_FloatBuildMsc P_Groups P_FloatGroups P_Evaluate
  P_GroupsMsc P_RefDyn.
Open Scope nat_scope.

(** [K] groups, with the largest distance [d] within a group and the smallest distance [s] between groups; [n d / s] is small,
    compared to the ratio of the distances between groups, and, if there may be [k > K] medoids, compared to the ratio of the
    smallest and the largest distance within a group, of which each has more than [k] objects.  [q] is [d / s]; [e] is an
    error of the silhouettes, 0 in exact arithmetic. *)
Definition told_apart (n K k : nat) (v : diss) (g : nat -> nat) (q e : Q) : Prop :=
  exists d s x, groups n K v g d s /\ alike n v g d /\ (0 < s)%Q /\ (q == d / s)%Q /\
    ((K = 2 /\ x = (s / (s + d))%Q) \/ exists S, (forall i j, i < n -> j < n -> (v i j <= S)%Q) /\ x = (s / S)%Q) /\
    (inject_Z (Z.of_nat n) * (d / s + e) < x)%Q /\
    (K < k -> exists d0, crowded n K v g k d0 /\ (inject_Z (Z.of_nat n) * (d / s + e) < d0 / d)%Q).

Lemma told_even n K k v g q e : told_apart n K k v g q e -> even_groups n K v g q e.
Proof.
  intros (d & s & x & h1 & h2 & h3 & h4 & h5 & h6 & _). exists d, s, x. repeat (split; [assumption|]). exact h6.
Qed.

Lemma even_told n K v g q e : even_groups n K v g q e -> told_apart n K K v g q e.
Proof.
  intros (d & s & x & h1 & h2 & h3 & h4 & h5 & h6). exists d, s, x. do 6 (split; [assumption|]). lia.
Qed.

(** such a silhouette has only the right number of medoids, one in each group *)
Lemma told_high n K k v g q e med : dissimilarity n v -> 2 <= K -> (0 <= e)%Q -> told_apart n K k v g q e -> 2 <= length med <= k ->
  (forall m, In m med -> m < n) -> (1 - q - e <= med_sil v n med)%Q -> length med = K /\ covers n g med.
Proof.
  intros hv hK he ht hl hin hhi.
  destruct ht as (d & s & x & hg & ha & hs0 & hq & hx & hlt & hcr).
  assert (hd0 : (0 <= d)%Q) by (apply (gr_d n K v g d s); auto; lia).
  assert (hx1 : (x <= 1)%Q).
  { destruct hx as [[_ ->]|(S & hS & ->)]; [apply two_le_one; auto|apply (even_le_one n K v g d s S); auto]. }
  destruct (groups_close n K v g d s x e hv hg ltac:(lia) hs0 he hx1 hlt) as [hnd hds].
  assert (hz : (0 <= inject_Z (Z.of_nat n))%Q) by (change 0%Q with (inject_Z 0); rewrite <- Zle_Qle; lia).
  assert (hlow : (inject_Z (Z.of_nat n) * (1 - med_sil v n med) <= inject_Z (Z.of_nat n) * (d / s + e))%Q).
  { rewrite !(Qmult_comm (inject_Z (Z.of_nat n))). apply Qmult_le_compat_r; [rewrite hq in hhi; lra|exact hz]. }
  assert (hmiss : forall i, i < n -> (forall m, In m med -> g m <> g i) -> K = length med \/ 3 <= K -> False).
  { intros i hi hm hc. assert (hr : (x <= near_ratio v i med)%Q).
    { destruct hx as [[h2 ->]|(S & hS & ->)].
      - apply (missing_ratio_two n K v g d s hv hg hK hs0); auto. lia.
      - apply (missing_ratio n K v g d s hg hs0 S med i hS); auto. lia. }
    pose proof (missing_sil n K v hv hK x med i ltac:(lia) hin hi hr). lra. }
  destruct (lt_eq_lt_dec (length med) K) as [[h|h]|h].
  - exfalso. destruct (few_miss n K v g d s hg med ltac:(lia) h) as (i & hi & hm). apply (hmiss i hi hm). lia.
  - split; [exact h|]. destruct (covers_dec n K g ltac:(lia) med) as [hc|(i & hi & hm)]; [exact hc|exfalso].
    apply (hmiss i hi hm). left. auto.
  - exfalso. destruct (hcr ltac:(lia)) as (c0 & hc & hlt2).
    assert (hpos : (0 < c0)%Q).
    { apply Qnot_le_lt. intros hle. assert (h0 : (0 <= d / s + e)%Q) by (assert (0 <= d / s)%Q by (apply Qle_shift_div_l; lra); lra).
      assert (h1 : (c0 / d <= 0)%Q).
      { destruct (Qeq_dec d 0) as [z|z]; [rewrite z; unfold Qdiv; change (/ 0)%Q with 0%Q; lra|].
        apply Qle_shift_div_r; lra. }
      nra. }
    pose proof (many_low n K v g d s hv hg hds med k c0 hc hpos (proj1 hl) ltac:(lia) hin). lra.
Qed.

(** C88.  The returned silhouette is a certificate: if it is at least 1 - d / s, the returned clusters are the groups.  In the
    list of losses, at most the entry for the number of groups is that high. *)
Theorem C88_certificate {Nt Lt : Type} `{HLL : LossLaws Nt Lt} `{HAL : !AddLaws Nt} `{HDL : !DivLaws Nt Lt}
    (M : Mat Nt) n D K g q med mink maxiter :
  diss_matrix M n D -> sizes n (length med) -> medoids n (length med) med -> 2 <= length med <= 4 -> 2 <= K ->
  told_apart n K (length med) (vals D) g q 0 ->
  let mk := Nat.min (Nat.max mink 1) (length med) in
  exists r : dyn_result Lt, dynmsc M med mink maxiter = Ok r /\
    ((1 - q <= vL (r_loss (d_res r)))%Q -> length (r_med (d_res r)) = K /\ finds_groups vL n g q (d_res r)) /\
    (forall c, mk <= c -> 2 <= c <= length med -> c <> K -> (vL (nth (c - mk) (d_losses r) lzero) < 1 - q)%Q).
Proof.
  intros hd hs hm hk hK ht mk. pose proof (proj2 (proj1 (emb_vals hd))) as hv.
  destruct (C30_dynmsc_best (Lt := Lt) M n D med mink maxiter hd hs hm (proj1 hk)) as (r & f & e & ef & _ & _ & hmax & b1 & b2 & _ & b4 & _).
  destruct (C31_dynmsc_value (Lt := Lt) M n D med mink maxiter r hd hs hm (proj1 hk) e (or_introl (proj2 hk))) as (v1 & v2 & _).
  destruct (C30_dynmsc_losses (Lt := Lt) M n D med mink maxiter hd hs hm hk) as (r' & e' & l1 & _).
  rewrite e in e'. injection e' as <-. exists r. split; [exact e|]. destruct b4 as (_ & _ & b5). split.
  - intros hhi. assert (hhi' : (1 - q <= med_sil (vals D) n (r_med (d_res r)))%Q) by (rewrite <- v1; exact hhi).
    destruct (told_high n K (length med) (vals D) g q 0 (r_med (d_res r)) hv hK (Qle_refl 0) ht b2 b5 ltac:(lra)) as [hl hc]. split; [exact hl|].
    destruct (even_facts n K (vals D) g q 0 hv hK (Qle_refl 0) (told_even _ _ _ _ _ _ _ ht)) as (d & s & x & hg & ha & hq & hnd & hds & _).
    split; [apply (covers_recovers n K (vals D) g d s hv hg ltac:(lia) hnd); auto; lia|]. split; [exact hhi|].
    rewrite v1. apply med_sil_range; [destruct hs; lia|lia|]. intros o y ho hy. apply (proj2 hv); auto.
  - intros c hc1 hc2 hne. destruct (l1 c hc1 hc2) as (meds & (m1 & _ & m3) & val). fold mk in val.
    apply Qnot_le_lt. intros hhi. assert (hhi' : (1 - q <= med_sil (vals D) n meds)%Q) by (rewrite <- val; exact hhi).
    destruct (told_high n K (length med) (vals D) g q 0 meds hv hK (Qle_refl 0) ht) as [hl _]; auto; [lia|lra|lia].
Qed.
Print Assumptions C88_certificate.

(** the searches of the reference algorithm *)
Lemma shrink_run v n maxiter t med j : t <= length med -> inr n med -> j < t ->
  exists med', length med' = length med - j /\ inr n med' /\
    nth j (shrink v n maxiter t med) ([], 0, 0) = eager_swaps (sil_better v n) (seq 0 n) med' maxiter.
Proof.
  revert t med. induction j as [|j IH]; intros t med ht hin hj; (destruct t as [|t]; [lia|]); cbn [shrink nth].
  - exists med. split; [lia|auto].
  - assert (ho : forall j, In j (seq 0 n) -> j < n) by (intros y hy; apply in_seq in hy; lia).
    destruct (@eager_keeps n (sil_better v n) (seq 0 n) med maxiter (length med) ho hin eq_refl) as [k1 k2].
    set (r := fst (fst (eager_swaps (sil_better v n) (seq 0 n) med maxiter))) in *.
    assert (hne : r <> []) by (intros e; rewrite e in k2; simpl in k2; lia).
    assert (h1 : (0 < 1)%Q) by reflexivity.
    destruct (@worst_drop_scale v v n 1 h1 (fun i j _ _ => Qeq_sym _ _ (Qmult_1_l (v i j))) r hne k1) as [_ w].
    destruct (IH t (worst_drop v n r)) as (med' & a1 & a2 & a3); [rewrite length_worst_drop; lia|exact w|lia|].
    exists med'. rewrite length_worst_drop in a1. split; [lia|auto].
Qed.

(** Two groups are found, and their number, from any initial medoids. *)
Theorem C88_two_groups {Nt Lt : Type} `{HLL : LossLaws Nt Lt} `{HAL : !AddLaws Nt} `{HDL : !DivLaws Nt Lt}
    (M : Mat Nt) n D g q med mink maxiter :
  diss_matrix M n D -> sizes n (length med) -> medoids n (length med) med -> 2 <= length med <= 4 ->
  told_apart n 2 (length med) (vals D) g q 0 -> two_groups n (vals D) g q 0 -> mink <= 2 -> 1 <= maxiter ->
  exists r : dyn_result Lt, dynmsc M med mink maxiter = Ok r /\ length (r_med (d_res r)) = 2 /\ finds_groups vL n g q (d_res r).
Proof.
  intros hd hs hm hk ht htwo hmi hit. pose proof (proj2 (proj1 (emb_vals hd))) as hv.
  destruct (C88_certificate (Lt := Lt) M n D 2 g q med mink maxiter hd hs hm hk (le_n 2) ht) as (r & e & hcert & _).
  exists r. split; [exact e|]. apply hcert.
  destruct (C30_dynmsc_best (Lt := Lt) M n D med mink maxiter hd hs hm (proj1 hk)) as (r' & f & e' & _ & hlen & _ & hmax & _).
  rewrite e in e'. injection e' as <-.
  destruct (C59_dynmsc_is_shrinking_search (Lt := Lt) M n D med mink maxiter hd hs hm hk) as (r' & e' & _ & _ & _ & _ & hl & _ & _).
  rewrite e in e'. injection e' as <-.
  set (mk := Nat.min (Nat.max mink 1) (length med)) in *. assert (hmk : 1 <= mk <= 2) by (unfold mk; lia). clearbody mk.
  replace (Nat.max mk 2) with 2 in hl by lia.
  destruct (shrink_run (vals D) n maxiter (length med - 2 + 1) med (length med - 2)) as (med2 & a1 & a2 & a3);
    [lia|exact (proj2 (proj2 hm))|lia|].
  specialize (hl 2 ltac:(lia) ltac:(lia)). unfold end_of in hl. rewrite a3 in hl.
  destruct htwo as (d & s & hg & ha & hs0 & hq & hlt).
  assert (hd0 : (0 <= d)%Q) by (apply (gr_d n 2 (vals D) g d s); auto).
  destruct (groups_close n 2 (vals D) g d s _ 0 hv hg ltac:(lia) hs0 ltac:(lra) (two_le_one d s hd0 hs0) hlt) as [hnd hds].
  assert (hlt' : (inject_Z (Z.of_nat n) * (d / s) < s / (s + d))%Q) by (setoid_replace (d / s)%Q with (d / s + 0)%Q by lra; exact hlt).
  assert (hok : length med2 = 2 /\ forall m, In m med2 -> m < n) by (split; [lia|exact a2]).
  pose proof (eager_covers n (vals D) g d s hv hg ha hs0 hds hlt' maxiter med2 hok hit) as hc.
  assert (ho : forall j, In j (seq 0 n) -> j < n) by (intros y hy; apply in_seq in hy; lia).
  destruct (@eager_keeps n (sil_better (vals D) n) (seq 0 n) med2 maxiter 2 ho a2 (proj1 hok)) as [k1 k2].
  pose proof (groups_med_sil n 2 (vals D) g d s hv hg (le_n 2) hds _ k2 k1 hc) as h1.
  assert (h2 : (vL (nth (2 - mk) (d_losses r) lzero) <= vL (r_loss (d_res r)))%Q).
  { apply hmax. apply nth_In. lia. }
  rewrite hl in h2. rewrite hq. lra.
Qed.
Print Assumptions C88_two_groups.

(** Any number of groups up to four, if the initial medoids are one of each group: neither swaps nor fewer medoids lead away
    from them, whatever the limits. *)
Theorem C88_kept {Nt Lt : Type} `{HLL : LossLaws Nt Lt} `{HAL : !AddLaws Nt} `{HDL : !DivLaws Nt Lt}
    (M : Mat Nt) n D g q med mink maxiter :
  diss_matrix M n D -> sizes n (length med) -> medoids n (length med) med -> 2 <= length med <= 4 ->
  even_groups n (length med) (vals D) g q 0 -> covers n g med ->
  exists r : dyn_result Lt, dynmsc M med mink maxiter = Ok r /\ length (r_med (d_res r)) = length med /\ finds_groups vL n g q (d_res r).
Proof.
  intros hd hs hm hk hev hc. assert (ht := even_told n (length med) (vals D) g q 0 hev).
  destruct (C88_certificate (Lt := Lt) M n D _ g q med mink maxiter hd hs hm hk (proj1 hk) ht) as (r & e & hcert & _).
  exists r. split; [exact e|]. apply hcert.
  destruct (C30_dynmsc_best (Lt := Lt) M n D med mink maxiter hd hs hm (proj1 hk)) as (r' & f & e' & ef & hlen & hf & hmax & _).
  rewrite e in e'. injection e' as <-.
  destruct (C87_kept (Lt := Lt) M n D g q med maxiter hd hs hm (proj1 hk) hev hc (fastermsc M med maxiter) (or_introl eq_refl)) as (f' & ef' & _ & h1 & _).
  rewrite ef in ef'. injection ef' as <-. rewrite <- hf in h1.
  pose proof (hmax _ (nth_In (d_losses r) lzero (ltac:(lia) : length med - Nat.min (Nat.max mink 1) (length med) < length (d_losses r)))). lra.
Qed.
Print Assumptions C88_kept.

(** Binary64: the loss dynmsc returns is not below fastermsc's. *)
Lemma dyn_first {Nt : Type} `{HO : OrdLaws Nt} `{HF : FromN Nt f64} (M : Mat Nt) n D med mink maxiter (r : dyn_result f64) (p : pam_result f64) :
  diss_matrix M n D -> exact_from n D -> sizes n (length med) -> medoids n (length med) med -> 2 <= length med <= 4 ->
  dynmsc M med mink maxiter = Ok r -> fastermsc M med maxiter = Ok p -> (f64_val (r_loss p) <= f64_val (r_loss (d_res r)))%Q.
Proof.
  intros HD he hs hm [hk hk4] er ep. assert (hn2 : 2 <= n) by (destruct hs; lia). assert (hn : 1 <= n) by lia.
  assert (hn32 : (N.of_nat n <= 4294967295)%N) by apply hs. pose proof (proj1 HD) as HM.
  destruct (dynmsc_near (U := err64) HD he hn2 hn32 maxiter hs hm mink hk) as (r' & e & hf & h). rewrite er in e. injection e as <-.
  destruct (df_first hf) as (p' & e & hp). rewrite ep in e. injection e as <-.
  destruct h as [h1 h2 h3 h4 h5 h6 h7 [h8 h8'] h9 h10 h11].
  set (k := length med) in *. set (mk := Nat.min (Nat.max mink 1) k) in *. assert (hmk : 1 <= mk <= k) by (unfold mk; lia). clearbody mk.
  assert (LS : forall meds x, listed M n D meds x -> f64_finite x).
  { intros meds x (s & -> & hl & hb). apply (silhouette_pos HD hn2 hn32 (proj1 hl) hb). }
  destruct (h10 ltac:(auto)) as [q1 _]. destruct (h11 k) as (meds & _ & m2); [auto|lia|lia|].
  assert (hx : In (nth (k - mk) (d_losses r) (lzero : f64)) (d_losses r)) by (apply nth_In; lia).
  destruct (h2 _ hx) as [_ h12]. apply LS in q1, m2. rewrite hp in h12, m2.
  apply Qnot_lt_le. intros hlt. apply SFltb_val in hlt; auto.
  change (lltb (r_loss (d_res r)) (r_loss p) = true) in hlt. congruence.
Qed.

(** Binary64: the certificate, with the rounding errors of C65. *)
Theorem C88_f64_certificate {Nt : Type} `{HO : OrdLaws Nt} `{HF : FromN Nt f64} (M : Mat Nt) n D K g q e med mink maxiter :
  diss_matrix M n D -> exact_from n D -> sizes n (length med) -> medoids n (length med) med -> 2 <= length med <= 4 -> 2 <= K ->
  (sil_error n <= e)%Q -> told_apart n K (length med) (vals D) g q e ->
  let mk := Nat.min (Nat.max mink 1) (length med) in
  exists r : dyn_result f64, dynmsc M med mink maxiter = Ok r /\
    ((1 - q - e + sil_error n <= f64_val (r_loss (d_res r)))%Q -> length (r_med (d_res r)) = K /\
      recovers n g (r_med (d_res r)) (r_assi (d_res r)) /\ (1 - q <= med_sil (vals D) n (r_med (d_res r)) <= 1)%Q) /\
    (forall c, mk <= c -> 2 <= c <= length med -> c <> K ->
      (f64_val (nth (c - mk) (d_losses r) S754_nan) < 1 - q - e + sil_error n)%Q).
Proof.
  intros hd he hs hm hk hK hE ht mk. pose proof (proj2 (proj1 (emb_vals hd))) as hv.
  assert (hE0 : (0 <= sil_error n)%Q).
  { unfold sil_error. apply Qmult_le_0_compat; [change 0%Q with (inject_Z 0); rewrite <- Zle_Qle; lia|vm_compute; discriminate]. }
  destruct (C65_dynmsc M n D med mink maxiter hd he hs hm (proj1 hk))
    as (r & er & h1 & h2 & h3 & (m1 & m2 & m3) & h5 & h6 & h7 & _ & _ & _ & _ & h10 & h11).
  exists r. split; [exact er|]. split.
  - intros hhi. destruct (h10 (or_introl (proj2 hk))) as [l1 l2]. unfold off_by in l1. apply Qabs_Qle_condition in l1.
    destruct (told_high n K (length med) (vals D) g q e (r_med (d_res r)) hv hK ltac:(lra) ht h3 m3 ltac:(lra)) as [hl hc].
    split; [exact hl|].
    destruct (even_facts n K (vals D) g q e hv hK ltac:(lra) (told_even _ _ _ _ _ _ _ ht)) as (d & s & x & hg & ha & hq & hnd & hds & _).
    split; [apply (covers_recovers n K (vals D) g d s hv hg ltac:(lia) hnd); auto; lia|]. split.
    + rewrite hq. apply (groups_med_sil n K (vals D) g d s hv hg hK hds); auto.
    + apply med_sil_range; [destruct hs; lia|lia|]. intros o y ho hy. apply (proj2 hv); auto.
  - intros c c1 c2 hne. destruct (h11 c (or_introl (proj2 hk)) c1 c2) as (meds & (g1 & _ & g3) & l1 & _). fold mk in l1.
    unfold off_by in l1. apply Qabs_Qle_condition in l1. apply Qnot_le_lt. intros hhi.
    destruct (told_high n K (length med) (vals D) g q e meds hv hK ltac:(lra) ht) as [hl _]; auto; [lia|lra|lia].
Qed.
Print Assumptions C88_f64_certificate.

(** Binary64: groups once found are kept. *)
Theorem C88_f64_kept {Nt : Type} `{HO : OrdLaws Nt} `{HF : FromN Nt f64} (M : Mat Nt) n D g q med mink maxiter :
  diss_matrix M n D -> exact_from n D -> adds_near n D -> sizes n (length med) -> medoids n (length med) med -> 2 <= length med <= 4 ->
  3 <= length med \/ distinct_objects n (vals D) ->
  even_groups n (length med) (vals D) g q (inject_Z (Z.of_nat n + 1) * sil_error n) -> covers n g med ->
  exists r : dyn_result f64, dynmsc M med mink maxiter = Ok r /\ length (r_med (d_res r)) = length med /\
    recovers n g (r_med (d_res r)) (r_assi (d_res r)) /\ (1 - q <= med_sil (vals D) n (r_med (d_res r)) <= 1)%Q /\
    off_by (sil_error n) (med_sil (vals D) n (r_med (d_res r))) (r_loss (d_res r)).
Proof.
  intros hd he hadd hs hm hk hdist hev hc.
  assert (hE0 : (0 <= sil_error n)%Q).
  { unfold sil_error. apply Qmult_le_0_compat; [change 0%Q with (inject_Z 0); rewrite <- Zle_Qle; lia|vm_compute; discriminate]. }
  assert (hn2 : (3 <= inject_Z (Z.of_nat n + 1))%Q) by (change 3%Q with (inject_Z 3); rewrite <- Zle_Qle; destruct hs; lia).
  assert (hE : (3 * sil_error n <= inject_Z (Z.of_nat n + 1) * sil_error n)%Q) by (apply Qmult_le_compat_r; auto).
  destruct (C88_f64_certificate M n D (length med) g q (inject_Z (Z.of_nat n + 1) * sil_error n) med mink maxiter hd he hs hm hk (proj1 hk) ltac:(lra) (even_told _ _ _ _ _ _ hev))
    as (r & er & hcert & _).
  destruct (C65_dynmsc M n D med mink maxiter hd he hs hm (proj1 hk)) as (r' & e & _ & _ & _ & _ & _ & _ & _ & _ & _ & _ & _ & h10 & _).
  rewrite er in e. injection e as <-. destruct (h10 (or_introl (proj2 hk))) as [l1 _].
  destruct (C87_f64_kept M n D g q med maxiter hd he hadd hs hm (proj1 hk) hdist hev hc _ (or_introl eq_refl)) as (p & ep & _ & hp & hoff).
  pose proof (dyn_first M n D med mink maxiter r p hd he hs hm hk er ep) as hle.
  unfold off_by in hoff. apply Qabs_Qle_condition in hoff. exists r. split; [exact er|].
  destruct hcert as (c1 & c2 & c3); [lra|]. auto.
Qed.
Print Assumptions C88_f64_kept.

(** ** Concrete inputs *)
Lemma told_entries n K k v g d s S d0 l e : sepQ_b n K v g d s 0 = true -> Qlt_bool 0 s = true ->
  forallb (fun i => forallb (fun j => Qle_bool (v i j) S) (seq 0 n)) (seq 0 n) = true ->
  Qlt_bool (inject_Z (Z.of_nat n) * (d / s + e)) (s / S) = true -> Qlt_bool (inject_Z (Z.of_nat n) * (d / s + e)) (d0 / d) = true ->
  length l = K -> forallb (fun x => Nat.ltb k (length (nth x l [])) && forallb (fun i => Nat.ltb i n && Nat.eqb (g i) x) (nth x l [])) (seq 0 K) = true ->
  (forall l', In l' l -> NoDup l') ->
  forallb (fun i => forallb (fun j => Nat.eqb i j || negb (Nat.eqb (g i) (g j)) || Qle_bool d0 (v i j)) (seq 0 n)) (seq 0 n) = true ->
  told_apart n K k v g (d / s) e.
Proof.
  intros h h0 hb hlt hlt0 hl hc hnd hmin. destruct (sep_entries_at n K v g d s 0 h) as (h1 & h2 & _).
  apply Qlt_bool_iff in h0, hlt, hlt0. exists d, s, (s / S)%Q. repeat (split; [assumption|]). split; [reflexivity|]. split; [right|split; [exact hlt|]].
  - exists S. split; [|reflexivity]. intros i j hi hj. rewrite forallb_forall in hb.
    specialize (hb i (proj2 (in_seq _ _ _) (ltac:(lia) : 0 <= i < 0 + n))). rewrite forallb_forall in hb.
    apply Qle_bool_iff, hb, in_seq. lia.
  - intros _. exists d0. split; [|exact hlt0]. split.
    + intros x hx. exists (nth x l []). split; [apply hnd, nth_In; lia|]. rewrite forallb_forall in hc.
      specialize (hc x (proj2 (in_seq _ _ _) (ltac:(lia) : 0 <= x < 0 + K))). apply andb_prop in hc. destruct hc as [c1 c2].
      split; [apply Nat.ltb_lt, c1|]. rewrite forallb_forall in c2. intros i hi. specialize (c2 i hi). apply andb_prop in c2.
      destruct c2 as [c2 c3]. split; [apply Nat.ltb_lt, c2|apply Nat.eqb_eq, c3].
    + intros i j hi hj hne hg. rewrite forallb_forall in hmin.
      specialize (hmin i (proj2 (in_seq _ _ _) (ltac:(lia) : 0 <= i < 0 + n))). rewrite forallb_forall in hmin.
      specialize (hmin j (proj2 (in_seq _ _ _) (ltac:(lia) : 0 <= j < 0 + n))). apply orb_prop in hmin. destruct hmin as [hm|hm].
      * apply orb_prop in hm. destruct hm as [hm|hm]; [apply Nat.eqb_eq in hm; contradiction|].
        apply Nat.eqb_eq in hg. rewrite hg in hm. discriminate hm.
      * apply Qle_bool_iff, hm.
Qed.
Ltac no_dups := cbn [In]; intros l' hl'; repeat (destruct hl' as [<-|hl']; [repeat constructor; simpl; lia|]); destruct hl'.

(** two groups of five objects on a line; four initial medoids, all in one group *)
Definition rows_2d : list (list Z) := line [1000; 0; 1002; 2; 1; 1003; 3; 1001; 4; 1004]%Z.
Definition grp_2d (i : nat) : nat := nth i [1; 0; 1; 0; 0; 1; 0; 1; 0; 1] 0.
Lemma d2_diss : diss_matrix (mat_of_rows rows_2d) 10 (entries rows_2d).
Proof. apply rows_diss; [lia|reflexivity]. Qed.
Lemma d2_told : told_apart 10 2 4 (vals (entries rows_2d)) grp_2d (4 / 996) 0.
Proof.
  apply told_entries with (S := 1004%Q) (d0 := 1%Q) (l := [[1; 3; 4; 6; 8]; [0; 2; 5; 7; 9]]); try (vm_compute; reflexivity). no_dups.
Qed.
Lemma d2_two : two_groups 10 (vals (entries rows_2d)) grp_2d (4 / 996) 0.
Proof. apply two_entries; vm_compute; reflexivity. Qed.
Lemma d2_meds : medoids 10 4 [1; 3; 4; 6].
Proof. apply meds_ok. reflexivity. Qed.
Lemma d2_sizes : sizes 10 4.
Proof. apply sizes_ok. reflexivity. Qed.
Lemma le244 : 2 <= 4 <= 4. Proof. lia. Qed.
Definition C88_two_case := C88_two_groups (Lt := Q) (mat_of_rows rows_2d) 10 (entries rows_2d) grp_2d (4 / 996) [1; 3; 4; 6] 1 10
  d2_diss d2_sizes d2_meds le244 d2_told d2_two (le_S _ _ (le_n 1)) (ltac:(lia) : 1 <= 10).
Example C88_two_value : exists r : dyn_result Q, dynmsc (mat_of_rows rows_2d) [1; 3; 4; 6] 1 10 = Ok r /\
  length (r_med (d_res r)) = 2 /\ r_assi (d_res r) <> map (fun _ => 0) (r_assi (d_res r)).
Proof. eexists. split; [vm_compute; reflexivity|]. split; [reflexivity|discriminate]. Qed.

(** three groups of five objects on a line, four initial medoids *)
Definition rows_3d : list (list Z) := line [0; 1; 2; 3; 4; 1000; 1001; 1002; 1003; 1004; 2000; 2001; 2002; 2003; 2004]%Z.
Definition grp_3d (i : nat) : nat := i / 5.
Lemma d3_diss : diss_matrix (mat_of_rows rows_3d) 15 (entries rows_3d).
Proof. apply rows_diss; [lia|reflexivity]. Qed.
Lemma d3_told : told_apart 15 3 4 (vals (entries rows_3d)) grp_3d (4 / 996) 0.
Proof.
  apply told_entries with (S := 2004%Q) (d0 := 1%Q) (l := [[0; 1; 2; 3; 4]; [5; 6; 7; 8; 9]; [10; 11; 12; 13; 14]]);
    try (vm_compute; reflexivity). no_dups.
Qed.
Lemma d3_meds : medoids 15 4 [0; 2; 5; 12].
Proof. apply meds_ok. reflexivity. Qed.
Lemma d3_sizes : sizes 15 4.
Proof. apply sizes_ok. reflexivity. Qed.
Definition C88_certificate_case := C88_certificate (Lt := Q) (mat_of_rows rows_3d) 15 (entries rows_3d) 3 grp_3d (4 / 996) [0; 2; 5; 12] 1 10
  d3_diss d3_sizes d3_meds le244 (le_S _ _ (le_n 2)) d3_told.
Example C88_certificate_value : exists r : dyn_result Q, dynmsc (mat_of_rows rows_3d) [0; 2; 5; 12] 1 10 = Ok r /\
  (1 - 4 / 996 <= r_loss (d_res r))%Q /\ length (r_med (d_res r)) = 3.
Proof. eexists. split; [vm_compute; reflexivity|]. split; [vm_compute; discriminate|reflexivity]. Qed.

Definition C88_kept_case := C88_kept (Lt := Q) (mat_of_rows rows_3g) 6 (entries rows_3g) pairs6 (2 / 98) [1; 2; 4] 1 10
  g3_diss s63 k123 (ltac:(simpl; lia) : 2 <= length [1; 2; 4] <= 4) g3_even g3_covers.

(** binary64 *)
Definition rows_2df : list (list f64) := Eval vm_compute in map (map tenth) rows_2d.
Lemma d2f_diss : diss_matrix (mat_of_rows rows_2df) 10 (fentries rows_2df).
Proof. apply frows_diss; [lia|vm_compute; reflexivity]. Qed.
Lemma d2f_told : told_apart 10 2 4 (vals (fentries rows_2df)) grp_2d ((41 # 100) / (995 # 10)) (1 # 1000).
Proof.
  apply told_entries with (S := 101%Q) (d0 := (9 # 100)%Q) (l := [[1; 3; 4; 6; 8]; [0; 2; 5; 7; 9]]); try (vm_compute; reflexivity). no_dups.
Qed.
Definition C88_f64_certificate_case := C88_f64_certificate _ 10 _ 2 grp_2d _ (1 # 1000) [1; 3; 4; 6] 1 10 d2f_diss
  (f64_exact_from _ _ _ (diss_nonneg _ _ _ d2f_diss)) d2_sizes d2_meds le244 (le_n 2) (proj1 (Qle_bool_iff (sil_error 10) (1 # 1000)) eq_refl) d2f_told.
Example C88_f64_certificate_value : exists r : dyn_result f64, dynmsc (mat_of_rows rows_2df) [1; 3; 4; 6] 1 10 = Ok r /\
  (1 - (41 # 100) / (995 # 10) - (1 # 1000) + sil_error 10 <= f64_val (r_loss (d_res r)))%Q /\ length (r_med (d_res r)) = 2.
Proof. eexists. split; [vm_compute; reflexivity|]. split; [vm_compute; discriminate|reflexivity]. Qed.
Definition C88_f64_kept_case := C88_f64_kept _ 6 _ pairs6 _ [1; 2; 4] 1 10 g3f_diss (f64_exact_from _ _ _ (diss_nonneg _ _ _ g3f_diss))
  g3f_adds s63 k123 (ltac:(simpl; lia) : 2 <= length [1; 2; 4] <= 4) (or_introl (le_n 3)) (g3f_even (inject_Z (Z.of_nat 6 + 1) * sil_error 6) eq_refl) g3_covers.

(** ** What does not hold *)

(** Three groups which can be told apart need not be found: the largest group consists of three parts, which hold three of the
    initial medoids.  DynMSC then returns two medoids, from three as well as from four initial medoids. *)
Definition part (i : nat) : nat := if i <? 18 then i / 6 else if i <? 23 then 3 else 4.
Definition grp_parts (i : nat) : nat := part i - 2.
Definition rows_parts : list (list Z) :=
  map (fun i => map (fun j => if Nat.eqb i j then 0%Z else if Nat.eqb (part i) (part j) then 1%Z
    else if Nat.eqb (grp_parts i) (grp_parts j) then 10%Z else 1000000%Z) (seq 0 28)) (seq 0 28).
Theorem C88_stuck_refuted : exists (M : Mat Z) D g, diss_matrix M 28 D /\ metric 28 (vals D) /\
  told_apart 28 3 4 (vals D) g (10 / 1000000) 0 /\
  forall med, In med [[0; 6; 12]; [0; 6; 12; 18]] -> medoids 28 (length med) med /\
    exists r : dyn_result Q, dynmsc M med 2 10 = Ok r /\ length (r_med (d_res r)) = 2.
Proof.
  exists (mat_of_rows rows_parts), (entries rows_parts), grp_parts.
  split; [apply rows_diss; [lia|vm_compute; reflexivity]|]. split; [apply rows_metric; [lia|vm_compute; reflexivity..]|].
  split.
  { apply told_entries with (S := 1000000%Q) (d0 := 1%Q) (l := [[0; 1; 2; 3; 4]; [18; 19; 20; 21; 22]; [23; 24; 25; 26; 27]]);
      try (vm_compute; reflexivity). no_dups. }
  intros med hin. cbn [In] in hin. destruct hin as [<-|[<-|[]]];
    (split; [apply meds_ok; reflexivity|]); eexists; (split; [vm_compute; reflexivity|reflexivity]).
Qed.
Print Assumptions C88_stuck_refuted.

(** Two groups need not be told from their parts if these are well separated, too. *)
Definition rows_nested : list (list Z) := line [0; 1; 1000000; 1000001; 1000000000; 1000000001; 1001000000; 1001000001]%Z.
Definition grp_nested (i : nat) : nat := i / 4.
Theorem C88_nested_refuted : exists (M : Mat Z) D g med, diss_matrix M 8 D /\ metric 8 (vals D) /\
  two_groups 8 (vals D) g (1000001 / 998999999) 0 /\ medoids 8 (length med) med /\
  exists r : dyn_result Q, dynmsc M med 2 10 = Ok r /\ length (r_med (d_res r)) = 4.
Proof.
  exists (mat_of_rows rows_nested), (entries rows_nested), grp_nested, [0; 1; 2; 4].
  split; [apply rows_diss; [lia|vm_compute; reflexivity]|]. split; [apply rows_metric; [lia|vm_compute; reflexivity..]|].
  split; [apply two_entries; vm_compute; reflexivity|]. split; [apply meds_ok; reflexivity|].
  eexists. split; [vm_compute; reflexivity|reflexivity].
Qed.
Print Assumptions C88_nested_refuted.
