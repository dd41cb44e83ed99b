(** P_SilSym.v -- property C81: the silhouettes do not depend on the names of the clusters and of the
    objects, on the order of the medoids or on the unit; what happens with labels not in use.
    Every theorem is followed by a concrete input which meets its hypotheses. *)
From Coq Require Import ZArith QArith Qminmax Lqa Lia Permutation.
From Coq.Floats Require Import SpecFloat.
From Verif Require Import Base Num M_Mat M_Util M_Silhouette Inst Hoare Spec SpecFacts Laws SortFacts SilFacts RefFacts DynExact
  FloatFacts FloatRound FloatSil SilSym Ex P_Silhouette P_Reference.
Open Scope nat_scope.

(** ** Exact arithmetic *)

(** C81.  Object [i] is called [sg i] in the second matrix, cluster [a] is called [tau a] in the
    second clustering, and the unit is different by the factor [c]; also the number types may
    differ.  The values of the objects are the same, and so is the average. *)
Theorem C81_renamed {N1 L1 N2 L2 : Type} `{HLL1 : LossLaws N1 L1} `{HDL1 : !DivLaws N1 L1} `{HLL2 : LossLaws N2 L2}
    `{HDL2 : !DivLaws N2 L2} (M1 : Mat N1) (M2 : Mat N2) n D1 D2 c sg tau assi1 assi2 K :
  nonneg_matrix M1 n D1 -> nonneg_matrix M2 n D2 -> (N.of_nat n <= 4294967295)%N -> (0 < c)%Q ->
  Permutation (map sg (seq 0 n)) (seq 0 n) ->
  (forall i j, i < n -> j < n -> (vals D2 (sg i) (sg j) == c * vals D1 i j)%Q) ->
  length assi1 = n -> length assi2 = n -> 2 <= K -> dense K assi1 -> dense K assi2 ->
  (forall i, i < n -> nth (sg i) assi2 0 = tau (nth i assi1 0)) ->
  (forall a b, a < K -> b < K -> tau a = tau b -> a = b) ->
  exists (value1 : L1) vec1 (value2 : L2) vec2,
    silhouette M1 assi1 true = Ok (value1, vec1) /\ silhouette M2 assi2 true = Ok (value2, vec2) /\
    par_silhouette M1 assi1 = Ok value1 /\ par_silhouette M2 assi2 = Ok value2 /\
    (vL value2 == vL value1)%Q /\
    length vec1 = n /\ length vec2 = n /\
    forall i, i < n -> (vL (nth (sg i) vec2 lzero) == vL (nth i vec1 lzero))%Q.
Proof.
  intros h1 h2 hn hc hp hv l1 l2 hk de1 de2 ht hi.
  destruct (C20_silhouette_definition (Lt := L1) M1 n D1 assi1 K true h1 l1 hn hk de1) as (value1 & vec1 & e1 & q1 & r1).
  destruct (C20_silhouette_definition (Lt := L2) M2 n D2 assi2 K true h2 l2 hn hk de2) as (value2 & vec2 & e2 & q2 & r2).
  destruct (r1 eq_refl) as [r3 r4]. destruct (r2 eq_refl) as [r5 r6].
  assert (hi' : forall a b, In a assi1 -> In b assi1 -> tau a = tau b -> a = b).
  { intros a b ha hb. apply hi; apply de1; auto. }
  exists value1, vec1, value2, vec2. do 2 (split; [assumption|]).
  destruct (dense_two K assi1 hk de1) as [w1 _]. destruct (dense_two K assi2 hk de2) as [w2 _].
  split; [rewrite (par_silhouette_eq M1 assi1 true w1), e1; reflexivity|].
  split; [rewrite (par_silhouette_eq M2 assi2 true w2), e2; reflexivity|].
  split; [|split; [auto|split; [auto|]]].
  - rewrite q1, q2. eapply sil_mean_rename; eauto.
  - intros i hlt. rewrite r4 by auto. rewrite r6 by (apply (sg_lt sg hp); auto). eapply sil_object_rename; eauto.
Qed.
Print Assumptions C81_renamed.

(** C81.  Likewise for the medoid silhouette; the medoids may be listed in any order. *)
Theorem C81_medoid_renamed {N1 L1 N2 L2 : Type} `{HLL1 : LossLaws N1 L1} `{HDL1 : !DivLaws N1 L1} `{HLL2 : LossLaws N2 L2}
    `{HDL2 : !DivLaws N2 L2} (M1 : Mat N1) (M2 : Mat N2) n D1 D2 c sg meds1 meds2 :
  nonneg_matrix M1 n D1 -> nonneg_matrix M2 n D2 -> (N.of_nat n <= 4294967295)%N -> (0 < c)%Q ->
  Permutation (map sg (seq 0 n)) (seq 0 n) ->
  (forall i j, i < n -> j < n -> (vals D2 (sg i) (sg j) == c * vals D1 i j)%Q) ->
  2 <= length meds1 <= n -> (forall m, In m meds1 -> m < n) -> Permutation meds2 (map sg meds1) ->
  exists (value1 : L1) vec1 (value2 : L2) vec2,
    medoid_silhouette M1 meds1 true = Ok (value1, vec1) /\ medoid_silhouette M2 meds2 true = Ok (value2, vec2) /\
    (vL value2 == vL value1)%Q /\
    length vec1 = n /\ length vec2 = n /\
    forall i, i < n -> (vL (nth (sg i) vec2 lzero) == vL (nth i vec1 lzero))%Q.
Proof.
  intros h1 h2 hn hc hp hv hk hin hpm.
  assert (hl : length meds2 = length meds1) by (rewrite (Permutation_length hpm); apply map_length).
  assert (hin2 : forall m, In m meds2 -> m < n).
  { intros m hm. apply (Permutation_in _ hpm) in hm. apply in_map_iff in hm as (x & <- & hx). apply (sg_lt sg hp). auto. }
  destruct (C23_medoid_silhouette (Lt := L1) M1 n D1 meds1 true h1 hk hn hin) as (value1 & vec1 & e1 & q1 & _ & r1 & s1).
  destruct (C23_medoid_silhouette (Lt := L2) M2 n D2 meds2 true h2 ltac:(lia) hn hin2) as (value2 & vec2 & e2 & q2 & _ & r2 & s2).
  exists value1, vec1, value2, vec2. do 2 (split; [assumption|]).
  assert (hr : forall o, o < n -> (near_ratio (vals D2) (sg o) meds2 == near_ratio (vals D1) o meds1)%Q).
  { intros o ho. rewrite (@near_ratio_perm (vals D2) (sg o) meds2 (map sg meds1)) by (auto; lia). unfold near_ratio.
    apply (scaled_ratio (c := c)); auto; apply scaled_nth, scaled_sort; auto; eapply scaled_row; eauto. }
  split; [|split; [auto|split; [auto|]]].
  - rewrite q1, q2. unfold med_sil.
    rewrite (@sum_relabel n sg hp (fun o => near_ratio (vals D2) o meds2) (fun o => near_ratio (vals D1) o meds1) 1%Q).
    + rewrite Qmult_1_l. reflexivity.
    + intros o ho. rewrite Qmult_1_l. auto.
  - intros i hi. pose proof (sg_lt sg hp hi) as hs. rewrite (proj1 (s1 i ltac:(lia))), (proj1 (s2 (sg i) ltac:(lia))).
    rewrite hr by auto. reflexivity.
Qed.
Print Assumptions C81_medoid_renamed.

(** twice the matrix [m6], with the objects renamed by [sg6]; clusters 0, 1, 2 become 1, 2, 0 *)
Definition rows6d : list (list Z) := map (map (fun z => 2 * z)%Z) rows6p.
Lemma m6d_diss : diss_matrix (mat_of_rows rows6d) 6 (entries rows6d).
Proof. apply rows_diss; [lia|reflexivity]. Qed.
Lemma sg6_vals2 : forall i j, i < 6 -> j < 6 -> (vals (entries rows6d) (sg6 i) (sg6 j) == 2 * vals d6 i j)%Q.
Proof.
  intros x y hx hy. do 6 (destruct x as [|x]; [do 6 (destruct y as [|y]; [reflexivity|]); lia|]). lia.
Qed.
Definition tau3 (a : nat) : nat := nth a [1; 2; 0] 0.
Definition assi6 : list nat := [0; 1; 1; 2; 2; 2].
Definition assi6p : list nat := [2; 0; 1; 0; 0; 2].
Lemma dense6 : dense 3 assi6.
Proof. intros c. unfold assi6. simpl. lia. Qed.
Lemma dense6p : dense 3 assi6p.
Proof. intros c. unfold assi6p. simpl. lia. Qed.
Lemma tau3_ok : forall i, i < 6 -> nth (sg6 i) assi6p 0 = tau3 (nth i assi6 0).
Proof. intros i hi. do 6 (destruct i as [|i]; [reflexivity|]). lia. Qed.
Lemma tau3_inj : forall a b, a < 3 -> b < 3 -> tau3 a = tau3 b -> a = b.
Proof.
  intros a b ha hb. do 3 (destruct a as [|a]; [do 3 (destruct b as [|b]; [cbn; congruence|]); lia|]). lia.
Qed.
Definition C81_renamed_case := C81_renamed (L1 := Q) (L2 := Q) m6 (mat_of_rows rows6d) 6 d6 (entries rows6d) 2 sg6 tau3 assi6 assi6p 3
  (diss_nonneg _ _ _ m6_diss) (diss_nonneg _ _ _ m6d_diss) ltac:(vm_compute; discriminate) ltac:(reflexivity) sg6_perm sg6_vals2
  eq_refl eq_refl ltac:(lia) dense6 dense6p tau3_ok tau3_inj.
Lemma perm_meds6 : Permutation [1; 2; 0] (map sg6 [0; 1; 3]).
Proof. change (Permutation [1; 2; 0] ([2; 0] ++ [1])). apply (Permutation_cons_app [2; 0] [] 1). reflexivity. Qed.
Definition C81_medoid_case := C81_medoid_renamed (L1 := Q) (L2 := Q) m6 (mat_of_rows rows6d) 6 d6 (entries rows6d) 2 sg6 [0; 1; 3] [1; 2; 0]
  (diss_nonneg _ _ _ m6_diss) (diss_nonneg _ _ _ m6d_diss) ltac:(vm_compute; discriminate) ltac:(reflexivity) sg6_perm sg6_vals2
  ltac:(simpl; lia) ltac:(simpl; lia) perm_meds6.

(** C81.  A label below the largest one is not in use: the values say nothing about the clustering.
    They are -1 for all objects which are not at distance 0 from the rest of their cluster. *)
Theorem C81_unused_label {Nt Lt : Type} `{HDL : DivLaws Nt Lt} (M : Mat Nt) n D assi c a :
  nonneg_matrix M n D -> length assi <= n -> (N.of_nat n <= 4294967295)%N ->
  In a assi -> c < a -> ~ In c assi ->
  exists (value : Lt) vec, silhouette M assi true = Ok (value, vec) /\ par_silhouette M assi = Ok value /\
    length vec = length assi /\ (-1 <= vL value <= 0)%Q /\
    forall i, i < length assi ->
      ((forall j, In j (others assi i (nth i assi 0%nat)) -> (vals D i j == 0)%Q) -> (vL (nth i vec lzero) == 0)%Q) /\
      ((exists j, In j (others assi i (nth i assi 0%nat)) /\ (0 < vals D i j)%Q) -> (vL (nth i vec lzero) == -1)%Q).
Proof.
  intros hd hl hn ha hca hc.
  assert (h1 : 1 <= length assi) by (destruct assi; [destruct ha|simpl; lia]).
  pose proof (width_ge _ _ ha) as hw. assert (hw1 : width assi <> 1) by lia.
  pose proof (silhouette_ok (Lt := Lt) hd assi true (conj h1 hl) ltac:(lia) hw1) as h.
  apply oks_inv in h as ([value vec] & e & q1 & q2 & q3). cbn [fst snd] in *. exists value, vec. split; [auto|].
  split; [rewrite (par_silhouette_eq M assi true hw1), e; reflexivity|]. split; [auto|].
  assert (hg : forall i, i < length assi -> _) by (intros i hi; exact (code_sil_gap hd assi (i := i) (c := c) hl hi ltac:(lia) hc)).
  cbv beta in hg.
  assert (hz : forall i, i < length assi -> (-1 <= code_sil D assi i (nth i assi 0%nat) <= 0)%Q).
  { intros i hi. destruct (hg i hi) as [g1 g2].
    assert (hdec : (forall j, In j (others assi i (nth i assi 0%nat)) -> (vals D i j == 0)%Q) \/
                   (exists j, In j (others assi i (nth i assi 0%nat)) /\ (0 < vals D i j)%Q)).
    { assert (hlt : forall j, In j (others assi i (nth i assi 0)) -> (0 <= vals D i j)%Q).
      { intros j hj. apply others_lt in hj. apply hd; lia. }
      revert hlt. generalize (others assi i (nth i assi 0)). induction l as [|j l IH]; intros hlt; [left; intros j []|].
      destruct (Qlt_le_dec 0 (vals D i j)) as [hp|hp]; [right; exists j; simpl; auto|].
      destruct IH as [IH|(j' & hj' & hp')]; [intros; apply hlt; simpl; auto| |right; exists j'; simpl; auto].
      left. intros j' [<-|hj']; auto. specialize (hlt j ltac:(simpl; auto)). lra. }
    destruct hdec as [hdec|hdec]; [specialize (g1 hdec)|specialize (g2 hdec)]; lra. }
  split.
  - rewrite q1. unfold code_mean.
    assert (hpos : (0 < inject_Z (Z.of_nat (length assi)))%Q) by (change 0%Q with (inject_Z 0); rewrite <- Zlt_Qlt; lia).
    split.
    + apply Qle_shift_div_l; auto.
      assert (hs : (sumQ (fun _ => (-1)) (seq 0 (length assi)) == -1 * inject_Z (Z.of_nat (length assi)))%Q).
      { generalize (length assi). intros m. induction m as [|m IH]; [reflexivity|].
        rewrite sumQ_seq_S, IH, Nat2Z.inj_succ, <- Z.add_1_r, inject_Z_plus. ring. }
      rewrite <- hs. apply sumQ_le. intros i hi. apply in_seq in hi. apply hz. lia.
    + apply Qle_shift_div_r; auto. rewrite Qmult_0_l. rewrite <- (sumQ_zero (seq 0 (length assi))).
      apply sumQ_le. intros i hi. apply in_seq in hi. apply hz. lia.
  - intros i hi. rewrite q3 by lia. apply hg. auto.
Qed.
Print Assumptions C81_unused_label.
Definition C81_unused_case := C81_unused_label (Lt := Q) m5 5 d5 [0; 0; 2; 2; 3] 1 2 (diss_nonneg _ _ _ m5_diss)
  (le_n 5) ltac:(vm_compute; discriminate) ltac:(simpl; auto) (le_n 2) ltac:(simpl; lia).

(** ** Any number types *)

(** C81.  The names of the clusters: the same bits, in every number type in which the comparison
    orders the mean dissimilarities linearly. *)
Theorem C81_labels {Nt Lt : Type} `{HN : NumN Nt} `{HL : NumL Lt} `{HF : FromN Nt Lt} (M : Mat Nt) n D assi K tau
    (P : Lt -> Prop) samples :
  is_matrix M n D -> length assi <= n -> 2 <= K -> dense K assi -> Permutation (map tau (seq 0 K)) (seq 0 K) ->
  linear lltb P ->
  (forall i buf p, i < length assi -> sil_buf M assi i = Ok buf -> In p buf -> P (buf_mean p)) ->
  silhouette (Lt := Lt) M (map tau assi) samples = silhouette (Lt := Lt) M assi samples /\
  par_silhouette (Lt := Lt) M (map tau assi) = par_silhouette (Lt := Lt) M assi.
Proof.
  intros hm hl hk hd ht hp hP. split; [eapply silhouette_rename|eapply par_silhouette_rename]; eauto.
Qed.
Print Assumptions C81_labels.

(** C81.  The order of the medoids: the same bits, in all number types, if the comparison orders the
    entries of the matrix linearly. *)
Theorem C81_medoid_order {Nt Lt : Type} `{HN : NumN Nt} `{HL : NumL Lt} `{HF : FromN Nt Lt} (M : Mat Nt) n D meds meds'
    (P : Nt -> Prop) samples :
  is_matrix M n D -> 2 <= length meds -> (forall m, In m meds -> m < n) -> Permutation meds meds' ->
  linear nltb P -> (forall i j, i < n -> j < n -> P (D i j)) ->
  medoid_silhouette (Lt := Lt) M meds' samples = medoid_silhouette (Lt := Lt) M meds samples.
Proof. intros hm hk hin hp hl hP. eapply medoid_silhouette_perm; eauto. Qed.
Print Assumptions C81_medoid_order.

Lemma linear_Z : linear (nltb (Nt := Z)) (fun _ => True).
Proof.
  cbn. split; [|split].
  - intros x _. apply Z.ltb_irrefl.
  - intros x y z _ _ _ h1 h2. apply Z.ltb_lt in h1, h2. apply Z.ltb_lt. lia.
  - intros x y _ _ h1 h2. apply Z.ltb_ge in h1, h2. lia.
Qed.
Definition C81_order_case := C81_medoid_order (Lt := f64) m6 6 d6 [0; 1; 3] [3; 0; 1] (fun _ => True) true
  (proj1 m6_diss) ltac:(simpl; lia) ltac:(simpl; lia) (Permutation_sym (Permutation_cons_append [0; 1] 3)) linear_Z (fun _ _ _ _ => Logic.I).

(** ** binary64 *)
Definition spos (x : f64) : Prop :=
  match x with S754_zero s => s = false | S754_infinity s => s = false | S754_finite s _ _ => s = false | S754_nan => True end.

Lemma spos_aux m e l : spos (binary_round_aux fprec femax false m e l).
Proof.
  unfold binary_round_aux. destruct (shr_fexp fprec femax m e l) as [mrs' e'].
  destruct (shr_fexp fprec femax _ e' _) as [mrs'' e'']. destruct (shr_m mrs''); [reflexivity| |exact Logic.I].
  match goal with |- context [if ?b then _ else _] => destruct b end; reflexivity.
Qed.
Lemma spos_round m e : spos (binary_round fprec femax false m e).
Proof. unfold binary_round. match goal with |- context [let (_, _) := ?x in _] => destruct x end. apply spos_aux. Qed.

Lemma spos_add x y : spos x -> spos y \/ y = S754_zero true -> spos (SFadd fprec femax x y).
Proof.
  intros hx hy. destruct x as [sx|sx| |sx mx ex]; destruct y as [sy|sy| |sy my ey]; cbn [spos] in *; subst;
    destruct hy as [hy|hy]; try discriminate hy; try (subst); try (injection hy as ->); cbn; auto.
  apply spos_round.
Qed.
Lemma spos_div x y : spos x -> spos y -> spos (SFdiv fprec femax x y).
Proof.
  intros hx hy. destruct x as [sx|sx| |sx mx ex]; destruct y as [sy|sy| |sy my ey]; cbn [spos] in *; subst; cbn [SFdiv xorb spos]; auto.
  destruct (SFdiv_core_binary _ _ _ _ _ _) as [[mz ez] lz]. apply spos_aux.
Qed.
Lemma spos_of_N k : spos (f64_of_Z (Z.of_N k)).
Proof. unfold f64_of_Z, binary_normalize. destruct k; cbn [Z.of_N]; [reflexivity|]. apply spos_round. Qed.

Lemma spos_nonneg x : f64_finite x -> (0 <= f64_val x)%Q -> spos x \/ x = S754_zero true.
Proof.
  destruct x as [s|s| |s m e]; cbn; intros hf hv; auto; try tauto.
  - destruct s; auto.
  - destruct s; auto. exfalso. pose proof (pow2_pos e). assert (h : (inject_Z (Zneg m) <= -1)%Q) by (change (-1)%Q with (inject_Z (-1)); rewrite <- Zle_Qle; lia).
    nra.
Qed.

(** finite numbers with the sign plus are ordered linearly *)
Lemma linear_f64 : linear (lltb (Lt := f64)) (fun x => f64_finite x /\ spos x).
Proof.
  cbn. split; [|split].
  - intros x [h _]. destruct (SFltb x x) eqn:e; auto. apply SFltb_val in e; auto. exfalso. lra.
  - intros x y z [hx _] [hy _] [hz _] h1 h2. apply SFltb_val in h1, h2; auto. apply SFltb_val; auto. lra.
  - intros x y [hx px] [hy py] h1 h2.
    assert (ev : (f64_val x == f64_val y)%Q).
    { apply Qle_antisym; apply Qnot_lt_le; intros c; apply SFltb_val in c; auto; congruence. }
    clear h1 h2. destruct x as [sx|sx| |sx mx ex]; destruct y as [sy|sy| |sy my ey]; cbn in *; try tauto; subst; auto.
    + exfalso. pose proof (pow2_pos ey). assert (h : (1 <= inject_Z (Zpos my))%Q) by (change 1%Q with (inject_Z 1); rewrite <- Zle_Qle; lia). nra.
    + exfalso. pose proof (pow2_pos ex). assert (h : (1 <= inject_Z (Zpos mx))%Q) by (change 1%Q with (inject_Z 1); rewrite <- Zle_Qle; lia). nra.
    + destruct (Z.lt_trichotomy ex ey) as [h|[h|h]].
      * exfalso. pose proof (exp_lt _ _ _ _ hx hy h). lra.
      * subst ey. f_equal. apply Qmult_inj_r in ev; [|pose proof (pow2_pos ex); lra].
        apply (proj1 (inject_Z_injective _ _)) in ev. congruence.
      * exfalso. pose proof (exp_lt _ _ _ _ hy hx h). lra.
Qed.

(** C81.  In binary64 the names of the clusters have no influence at all, if the entries are at least
    0 and at most 2^970. *)
Theorem C81_labels_f64 {Nt : Type} `{HN : NumN Nt} `{HF : FromN Nt f64} (M : Mat Nt) n D assi K tau samples :
  is_matrix M n D ->
  (forall x y, x < n -> y < n -> f64_finite (lfrom (D x y)) /\ (0 <= f64_val (lfrom (D x y)) <= 2 ^ 970)%Q) ->
  length assi <= n -> (N.of_nat n <= 4294967295)%N -> 2 <= K -> dense K assi ->
  Permutation (map tau (seq 0 K)) (seq 0 K) ->
  silhouette (Lt := f64) M (map tau assi) samples = silhouette (Lt := f64) M assi samples /\
  par_silhouette (Lt := f64) M (map tau assi) = par_silhouette (Lt := f64) M assi.
Proof.
  intros hm hb hl hn hk hd ht.
  assert (hB : forall x y, x < n -> y < n -> FloatSil.within 0 (2 ^ big_g) (lfrom (D x y))).
  { intros x y hx hy. destruct (hb x y hx hy) as (b1 & b2 & b3). split; [auto|]. split; auto. }
  assert (hf : fits53 (length assi)) by (apply fits_u32; lia).
  apply (C81_labels M n D assi K tau (fun x => f64_finite x /\ spos x) samples); auto; [apply linear_f64|].
  intros i buf p hi e hp.
  pose proof (sil_buf_within hm hB assi hl hf (i := i) ltac:(lia)) as hw. rewrite e in hw. cbn [oks] in hw.
  destruct (buf_mean_within (hw p hp)) as [h1 _]. split; [exact h1|].
  assert (hs : oks (sil_buf (Lt := f64) M assi i) (fun buf => forall c, spos (snd (nth c buf (0, lzero))))).
  { unfold sil_buf. apply foldM_enum with (I := fun _ (buf : list (nat * f64)) => forall c, spos (snd (nth c buf (0, lzero)))).
    - intros c. destruct c; reflexivity.
    - intros j a b ea hbuf. apply nth_error_lt in ea as hj. cbv zeta. destruct (negb (i =? j)); cbn [oks].
      + rewrite (@idx_nth _ _ _ (0, lzero)) by (rewrite length_grow; lia). cbn [bind].
        rewrite (proj2 (proj2 hm)) by lia. cbn [bind]. rewrite upd_ok by (rewrite length_grow; lia). cbn [oks].
        intros c. rewrite nth_set_nth by (rewrite length_grow; lia). rewrite !nth_grow.
        destruct (c =? a); cbn [snd]; auto. apply spos_add; auto.
        destruct (hb i j ltac:(lia) ltac:(lia)) as (b1 & b2 & _). apply spos_nonneg; auto.
      + intros c. rewrite nth_grow. auto. }
  rewrite e in hs. cbn [oks] in hs. apply (In_nth _ _ (0, lzero)) in hp as (c & _ & <-). specialize (hs c).
  unfold buf_mean, checked_div. destruct (lltb lzero _); [|reflexivity]. apply spos_div; auto. apply spos_of_N.
Qed.
Print Assumptions C81_labels_f64.
Lemma z_bits (z : Z) : (0 <= z <= 1000)%Z -> f64_finite (f64_of_Z z) /\ (0 <= f64_val (f64_of_Z z) <= 2 ^ 970)%Q.
Proof.
  intros h. pose proof (@of_nat_val (Z.to_nat z)) as hv. rewrite Z2Nat.id in hv by lia.
  destruct hv as [h1 h2]; [unfold fits53; lia|]. split; [exact h1|]. rewrite h2. unfold FloatSil.cnt. rewrite Z2Nat.id by lia. split.
  - change 0%Q with (inject_Z 0). rewrite <- Zle_Qle. lia.
  - apply Qle_trans with (inject_Z 1000); [rewrite <- Zle_Qle; lia|]. vm_compute. discriminate.
Qed.
Lemma m6_bits : forall x y, x < 6 -> y < 6 -> f64_finite (lfrom (d6 x y)) /\ (0 <= f64_val (lfrom (d6 x y)) <= 2 ^ 970)%Q.
Proof.
  intros x y hx hy. apply z_bits. do 6 (destruct x as [|x]; [do 6 (destruct y as [|y]; [cbn; lia|]); lia|]). lia.
Qed.
Lemma tau3_perm : Permutation (map tau3 (seq 0 3)) (seq 0 3).
Proof. change (Permutation [1; 2; 0] [0; 1; 2]). apply Permutation_sym. apply (Permutation_cons_append [1; 2] 0). Qed.
Definition C81_f64_case := C81_labels_f64 m6 6 d6 assi6 3 tau3 true (proj1 m6_diss) m6_bits (le_n 6) ltac:(vm_compute; discriminate)
  ltac:(lia) dense6 tau3_perm.
(** the order of the medoids in binary64; entries -0 are excluded for simplicity *)
Lemma linear_nf64 : linear (nltb (Nt := f64)) (fun x => f64_finite x /\ spos x).
Proof. exact linear_f64. Qed.

(** With NaN among the entries the names of the clusters do matter. *)
Theorem C81_nan_refuted : exists (rows : list (list f64)) assi tau value value',
  Permutation (map tau (seq 0 3)) (seq 0 3) /\ dense 3 assi /\
  silhouette (Lt := f64) (mat_of_rows rows) assi false = Ok (value, []) /\
  silhouette (Lt := f64) (mat_of_rows rows) (map tau assi) false = Ok (value', []) /\ value <> value'.
Proof.
  exists [[fz 0; fz 1; fnan; fz 2]; [fz 1; fz 0; fz 3; fz 2]; [fz 3; fz 3; fz 0; fz 2]; [fz 2; fz 2; fz 2; fz 0]], [0; 0; 1; 2].
  exists (fun a => nth a [0; 2; 1] 0). do 2 eexists.
  split; [apply (Permutation_cons eq_refl); apply perm_swap|].
  split; [intros c; simpl; lia|]. split; [vm_compute; reflexivity|]. split; [vm_compute; reflexivity|]. discriminate.
Qed.
Print Assumptions C81_nan_refuted.

(** In binary64 the names of the objects do matter, since sums depend on the order. *)
Theorem C81_objects_f64_refuted : exists n (d : nat -> nat -> Z) sg assi value value',
  Permutation (map sg (seq 0 n)) (seq 0 n) /\ (forall i, sg (sg i) = i) /\
  (forall i j, (0 <= d i j)%Z) /\ dense 2 assi /\ length assi = n /\
  silhouette (Lt := f64) (mat_of_rows (map (fun i => map (d i) (seq 0 n)) (seq 0 n))) assi false = Ok (value, []) /\
  silhouette (Lt := f64) (mat_of_rows (map (fun i => map (fun j => d (sg i) (sg j)) (seq 0 n)) (seq 0 n)))
    (map (fun i => nth (sg i) assi 0) (seq 0 n)) false = Ok (value', []) /\ value <> value'.
Proof.
  exists 5, (fun i j => nth j (nth i [[0; 9007199254740992; 1; 1; 18014398509481984]; [9007199254740992; 0; 1; 1; 18014398509481984];
    [1; 1; 0; 1; 4]; [1; 1; 1; 0; 4]; [18014398509481984; 18014398509481984; 4; 4; 0]] []) 0)%Z,
    (fun i => match i with 1 => 3 | 3 => 1 | i => i end), [0; 0; 0; 0; 1]. do 2 eexists.
  split; [apply NoDup_Permutation; [cbn; repeat (constructor; [simpl; lia|]); constructor|apply seq_NoDup|intros x; simpl; tauto]|].
  split; [intros i; do 4 (destruct i as [|i]; [reflexivity|]); reflexivity|].
  split; [intros i j; do 6 (destruct i as [|i]; [do 6 (destruct j as [|j]; [vm_compute; discriminate|]); destruct j; vm_compute; discriminate|]);
    destruct i; destruct j; vm_compute; discriminate|].
  split; [intros c; simpl; lia|]. split; [reflexivity|].
  split; [vm_compute; reflexivity|]. split; [vm_compute; reflexivity|]. discriminate.
Qed.
Print Assumptions C81_objects_f64_refuted.
