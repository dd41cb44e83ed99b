(** P_Silhouette.v -- properties C20 to C23: silhouette, par_silhouette, medoid_silhouette.
    Every theorem is followed by a concrete input which meets its hypotheses. *)
From Coq Require Import ZArith QArith Qminmax Lqa Lia Permutation.
From Verif Require Import Base Num M_Mat M_Util M_Silhouette Inst Hoare Spec SpecFacts Laws SortFacts SilFacts Ex.
Open Scope nat_scope.

Lemma dense_two K assi : 2 <= K -> dense K assi -> width assi <> 1 /\ 1 <= length assi.
Proof.
  intros hk hd. assert (h1 : In 1 assi) by (apply hd; lia). pose proof (width_ge _ _ h1). split; [lia|].
  destruct assi; [destruct h1|simpl; lia].
Qed.

(** C20.  The value is the average silhouette of the textbook, for labels 0..K-1 which are all in
    use, and with [samples] the values are those of the single objects. *)
Theorem C20_silhouette_definition {Nt Lt : Type} `{HDL : DivLaws Nt Lt} (M : Mat Nt) n D assi K samples :
  nonneg_matrix M n D -> length assi = n -> (N.of_nat n <= 4294967295)%N -> 2 <= K -> dense K assi ->
  exists (value : Lt) vec, silhouette M assi samples = Ok (value, vec) /\
    (vL value == sil_mean (vals D) assi)%Q /\
    (samples = true -> length vec = n /\
       forall i, i < n -> (vL (nth i vec lzero) == sil_object (vals D) assi i)%Q).
Proof.
  intros hd hl hn hk hde. destruct (dense_two K assi hk hde) as [hw h1].
  pose proof (silhouette_ok (Lt := Lt) hd assi samples (conj h1 (Nat.eq_le_incl _ _ hl)) ltac:(lia) hw) as h.
  apply oks_inv in h as ([value vec] & e & q1 & q2 & q3). cbn [fst snd] in *. exists value, vec. split; [auto|].
  assert (hc : forall i, i < length assi -> (code_sil D assi i (nth i assi 0%nat) == sil_object (vals D) assi i)%Q).
  { intros i hi. apply (code_sil_dense D (K := K)); auto. apply nth_error_nth'. auto. }
  split.
  - rewrite q1. unfold code_mean, sil_mean. rewrite (sumQ_ext _ (sil_object (vals D) assi)); [reflexivity|].
    intros i hi. apply in_seq in hi. apply hc. lia.
  - intros ->. split; [lia|]. intros i hi. rewrite q3 by lia. apply hc. lia.
Qed.
Print Assumptions C20_silhouette_definition.

Lemma dense5 : dense 2 [0; 0; 0; 1; 1].
Proof. intros c. simpl. lia. Qed.
Definition C20_case := C20_silhouette_definition (Lt := Q) m5 5 d5 [0; 0; 0; 1; 1] 2 true
  (diss_nonneg _ _ _ m5_diss) eq_refl ltac:(vm_compute; discriminate) (le_n 2) dense5.
Example C20_value : match silhouette (Lt := Q) m5 [0; 0; 0; 1; 1] false with
  | Ok (value, []) => (value == sil_mean (vals d5) [0; 0; 0; 1; 1]%nat)%Q /\ (0 < value)%Q | _ => False end.
Proof. vm_compute. auto. Qed.

(** One cluster: 0, in every number type. *)
Theorem C20_one_cluster {Nt Lt : Type} `{HN : NumN Nt} `{HL : NumL Lt} `{HF : FromN Nt Lt}
    (M : Mat Nt) n D assi samples :
  is_matrix M n D -> 1 <= length assi <= n -> (forall a, In a assi -> a = 0) ->
  exists vec, silhouette (Lt := Lt) M assi samples = Ok (lzero, vec) /\
    vec = repeat lzero (if samples then length assi else 0).
Proof.
  intros hm hl ha. eexists. split; [|reflexivity].
  apply silhouette_one; [|apply hm|].
  - apply width_one. split; [|exact ha]. intros ->. simpl in hl. lia.
  - pose proof (sil_buf_oks (Lt := Lt) hm assi (i := 0) ltac:(lia) ltac:(lia)) as h.
    apply oks_inv in h as (b & -> & _). eauto.
Qed.
Print Assumptions C20_one_cluster.
Definition C20_one_case := C20_one_cluster (Lt := f64) mf 4 df [0; 0; 0; 0] true mf_matrix ltac:(simpl; lia)
  ltac:(simpl; intuition).

(** Labels which are not used give a wrong value: the empty cluster counts as one at distance 0. *)
Theorem C20_label_gap_refuted : exists rows assi value, rows_ok 4 rows = true /\ length assi = 4 /\
  silhouette (Lt := Q) (mat_of_rows rows) assi false = Ok (value, []) /\
  ~ (value == sil_mean (vals (entries rows)) assi)%Q.
Proof.
  exists [[0; 1; 4; 4]; [1; 0; 4; 4]; [4; 4; 0; 1]; [4; 4; 1; 0]]%Z, [0; 0; 2; 2]. eexists.
  split; [reflexivity|]. split; [reflexivity|]. split; [vm_compute; reflexivity|]. vm_compute. discriminate.
Qed.
Print Assumptions C20_label_gap_refuted.

(** C21.  Values in [-1,1], for all labels; the samples are consistent. *)
Theorem C21_silhouette_range {Nt Lt : Type} `{HDL : DivLaws Nt Lt} (M : Mat Nt) n D assi :
  nonneg_matrix M n D -> 1 <= length assi <= n -> (N.of_nat n <= 4294967295)%N ->
  exists (value : Lt) vec, silhouette M assi true = Ok (value, vec) /\
    silhouette M assi false = Ok (value, []) /\
    length vec = length assi /\
    (forall i, i < length assi -> (-1 <= vL (nth i vec lzero) <= 1)%Q) /\
    (-1 <= vL value <= 1)%Q /\
    (vL value == sumQ vL vec / inject_Z (Z.of_nat (length assi)))%Q.
Proof.
  intros hd hl hn. destruct (Nat.eq_dec (width assi) 1) as [hw|hw].
  - assert (hb : exists buf, sil_buf (Lt := Lt) M assi 0 = Ok buf).
    { pose proof (sil_buf_oks (Lt := Lt) (proj1 hd) assi (i := 0) ltac:(lia) ltac:(lia)) as h.
      apply oks_inv in h as (b & -> & _). eauto. }
    rewrite !silhouette_one by (auto; apply hd). exists lzero, (repeat lzero (length assi)).
    split; [auto|]. split; [auto|]. split; [apply repeat_length|].
    assert (hz : (vL (lzero : Lt) == 0)%Q) by apply vL_zero.
    split; [intros i hi; rewrite nth_repeat; lra|]. split; [lra|].
    assert (hs : forall m, (sumQ vL (repeat (lzero : Lt) m) == 0)%Q).
    { intros m. induction m as [|m IH]; simpl; [lra|]. rewrite IH. lra. }
    rewrite hs, hz. unfold Qdiv. lra.
  - pose proof (silhouette_eq (Lt := Lt) M assi true hw) as e1.
    pose proof (silhouette_eq (Lt := Lt) M assi false hw) as e2.
    pose proof (silhouette_ok (Lt := Lt) hd assi true hl ltac:(lia) hw) as h.
    apply oks_inv in h as ([value vec] & e & q1 & q2 & q3). cbn [fst snd] in *.
    rewrite e in e1. rewrite e2. rewrite (proj1 (proj2 (proj1 hd))) in *. cbn [bind assertb] in *.
    destruct (mapM (sil_value M assi) (enum assi)) as [ss|p]; [|discriminate]. cbn [bind] in *.
    injection e1 as e1 e3. subst vec. exists value, ss. split; [auto|]. split; [rewrite e1; auto|].
    split; [auto|]. split; [|split].
    + intros i hi. rewrite q3 by lia. apply (code_sil_range hd); lia.
    + rewrite q1. apply mean_range; [lia|]. intros i hi. apply (code_sil_range hd); lia.
    + rewrite q1. unfold code_mean. rewrite (sum_nth ss (fun i => code_sil D assi i (nth i assi 0%nat))) by auto.
      rewrite q2. reflexivity.
Qed.
Print Assumptions C21_silhouette_range.

(** label 1 is not used here *)
Definition C21_case := C21_silhouette_range (Lt := Q) m5 5 d5 [0; 0; 2; 2; 3]
  (diss_nonneg _ _ _ m5_diss) ltac:(simpl; lia) ltac:(vm_compute; discriminate).

(** In every number type: with [samples] one value per object is returned, without none, and the
    reported value does not depend on the flag; no panic. *)
Theorem C21_samples {Nt Lt : Type} `{HN : NumN Nt} `{HL : NumL Lt} `{HF : FromN Nt Lt}
    (M : Mat Nt) n D assi :
  is_matrix M n D -> length assi <= n ->
  exists (value : Lt) vec, silhouette M assi true = Ok (value, vec) /\ length vec = length assi /\
    silhouette M assi false = Ok (value, []) /\
    ((exists a, In a assi /\ a <> 0) -> value = ldiv (fold_left ladd vec lzero) (lfrom_u32 (as_u32 (length assi)))).
Proof.
  intros hm hl. destruct (Nat.eq_dec (width assi) 1) as [hw|hw].
  - assert (ha : assi <> [] /\ forall a, In a assi -> a = 0) by (apply width_one; auto). destruct ha as [hne ha].
    assert (h1 : 1 <= length assi) by (destruct assi; [congruence|simpl; lia]).
    assert (hb : exists buf, sil_buf (Lt := Lt) M assi 0 = Ok buf).
    { pose proof (sil_buf_oks (Lt := Lt) hm assi (i := 0) ltac:(lia) ltac:(lia)) as h.
      apply oks_inv in h as (b & -> & _). eauto. }
    rewrite !silhouette_one by (auto; apply hm). exists lzero, (repeat lzero (length assi)).
    split; [auto|]. split; [apply repeat_length|]. split; [auto|]. intros (a & h & h'). apply ha in h. lia.
  - pose proof (silhouette_oks (Lt := Lt) hm assi true hl) as h.
    apply oks_inv in h as ([value vec] & e & h). cbn [snd] in h.
    pose proof (silhouette_eq (Lt := Lt) M assi true hw) as e1.
    rewrite (silhouette_eq (Lt := Lt) M assi false hw). rewrite e in e1.
    rewrite (proj1 (proj2 hm)) in *. cbn [bind assertb] in *.
    destruct (mapM (sil_value M assi) (enum assi)) as [ss|p]; [|discriminate]. cbn [bind] in *.
    injection e1 as -> ->. eexists _, ss. split; [exact e|]. auto.
Qed.
Print Assumptions C21_samples.
Definition C21_samples_case := C21_samples (Lt := f64) mf 4 df [0; 3; 1; 0] mf_matrix (le_n 4).

(** C22.  par_silhouette is silhouette, bit for bit, if there is a label other than 0. *)
Theorem C22_par_silhouette {Nt Lt : Type} `{HN : NumN Nt} `{HL : NumL Lt} `{HF : FromN Nt Lt}
    (M : Mat Nt) n D assi samples :
  is_matrix M n D -> length assi <= n -> (exists a, In a assi /\ a <> 0) ->
  exists (value : Lt) vec, silhouette M assi samples = Ok (value, vec) /\ par_silhouette M assi = Ok value.
Proof.
  intros hm hl (a & ha & ha').
  assert (hw : width assi <> 1) by (intros c; apply width_one in c as [_ c]; apply c in ha; auto).
  pose proof (silhouette_oks (Lt := Lt) hm assi samples hl) as h. apply oks_inv in h as ([value vec] & e & _).
  exists value, vec. split; [auto|]. rewrite (par_silhouette_eq M assi samples hw), e. reflexivity.
Qed.
Print Assumptions C22_par_silhouette.
Definition C22_case := C22_par_silhouette (Lt := f64) mf 4 df [0; 3; 1; 0] true mf_matrix (le_n 4)
  (ex_intro _ 3 (conj (or_intror (or_introl eq_refl)) (Nat.neq_succ_0 2))).

(** For any matrix at all (even not square, where both panic alike) they agree. *)
Theorem C22_same_panics {Nt Lt : Type} `{HN : NumN Nt} `{HL : NumL Lt} `{HF : FromN Nt Lt}
    (M : Mat Nt) assi samples :
  (exists a, In a assi /\ a <> 0) ->
  par_silhouette (Lt := Lt) M assi = (p <- silhouette M assi samples ;; Ok (fst p)).
Proof.
  intros (a & ha & ha'). apply par_silhouette_eq. intros c. apply width_one in c as [_ c]. apply c in ha. auto.
Qed.
Print Assumptions C22_same_panics.

(** A single cluster: 0 against -1. *)
Theorem C22_one_cluster_refuted : exists rows assi value value', rows_ok 3 rows = true /\
  silhouette (Lt := Q) (mat_of_rows rows) assi false = Ok (value, []) /\
  par_silhouette (Lt := Q) (mat_of_rows rows) assi = Ok value' /\ (value == 0)%Q /\ (value' == -1)%Q.
Proof.
  exists [[0; 1; 2]; [1; 0; 2]; [2; 2; 0]]%Z, [0; 0; 0]. do 2 eexists. split; [reflexivity|].
  split; [vm_compute; reflexivity|]. split; [vm_compute; reflexivity|]. split; reflexivity.
Qed.
Print Assumptions C22_one_cluster_refuted.

(** C23.  The medoid silhouette. *)
Theorem C23_medoid_silhouette {Nt Lt : Type} `{HDL : DivLaws Nt Lt} (M : Mat Nt) n D meds samples :
  nonneg_matrix M n D -> 2 <= length meds <= n -> (N.of_nat n <= 4294967295)%N ->
  (forall m, In m meds -> m < n) ->
  exists (value : Lt) vec, medoid_silhouette M meds samples = Ok (value, vec) /\
    (vL value == med_sil (vals D) n meds)%Q /\ (0 <= vL value <= 1)%Q /\
    length vec = (if samples then n else 0) /\
    (forall i, i < length vec -> (vL (nth i vec lzero) == 1 - near_ratio (vals D) i meds)%Q /\
       (0 <= vL (nth i vec lzero) <= 1)%Q).
Proof.
  intros hd hk hn hin.
  pose proof (medoid_silhouette_ok (Lt := Lt) hd meds samples hk hn hin) as h.
  apply oks_inv in h as ([value vec] & e & q1 & q2 & q3). cbn [fst snd] in *. exists value, vec.
  split; [auto|]. split; [auto|]. split; [|split; [auto|]].
  - rewrite q1. apply med_sil_range; [lia|lia|]. intros o m ho hm. apply hd; auto.
  - intros i hi. assert (hin' : i < n) by (destruct samples; lia).
    rewrite (q3 i hi). split; [reflexivity|].
    pose proof (near_ratio_range (vals D) i meds ltac:(lia)) as hr.
    destruct hr as [r1 r2]; [|lra]. intros m hm. apply hd; auto.
Qed.
Print Assumptions C23_medoid_silhouette.

Definition C23_case := C23_medoid_silhouette (Lt := Q) m6 6 d6 [0; 1; 3] true (diss_nonneg _ _ _ m6_diss)
  ltac:(simpl; lia) ltac:(vm_compute; discriminate) ltac:(simpl; lia).

Theorem C23_single_medoid {Nt Lt : Type} `{HN : NumN Nt} `{HL : NumL Lt} `{HF : FromN Nt Lt}
    (M : Mat Nt) n D m samples :
  is_matrix M n D -> (N.of_nat n <= 4294967295)%N ->
  exists vec : list Lt, medoid_silhouette M [m] samples = Ok (lone, vec) /\ vec = repeat lone (if samples then n else 0).
Proof.
  intros hm hn. unfold medoid_silhouette. rewrite (proj1 (proj2 hm)), (proj1 hm). cbn [bind assertb].
  apply N.leb_le in hn. change 4294967295%N with u32_max in hn. rewrite hn. cbn. eauto.
Qed.
Print Assumptions C23_single_medoid.
Definition C23_single_case := C23_single_medoid (Lt := f64) mf 4 df 2 true mf_matrix ltac:(vm_compute; discriminate).
