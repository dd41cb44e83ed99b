(** P_Evaluate.v -- property C79: the clusterings which the algorithms return can be handed to [silhouette] and
    [par_silhouette], as the tests of the repository do.  All labels are in use, even with duplicate objects, so
    that the value is the silhouette of the textbook; on well separated groups it is close to 1.
    Every theorem is followed by a concrete input which meets its hypotheses. *)
From Coq Require Import ZArith QArith Qabs Lqa Lia Permutation.
From Coq.Floats Require Import SpecFloat.
From Verif Require Import Base Num M_Mat M_Util M_Fasterpam M_Pam M_Alternating M_ParFasterpam M_Silhouette M_Msc M_Pammedsil M_Dynmsc
  Inst Hoare Spec SpecFacts Laws FloatFacts FloatSil FloatFmt FloatBuildMsc FloatMsc FloatBuild MscAny PamShape PamExact PamFacts PamMain BuildFacts MscFacts MscMain DynExact ParFacts SilFacts Approx Groups GroupSil
  Ex P_Fasterpam P_Pam P_Silhouette P_Msc P_MscBuild P_Dynmsc P_Float P_Bounded P_Approx P_Rounding P_Term P_FloatOpt P_FloatBuild P_FloatBuildMsc P_FloatPamsil P_Groups P_FloatGroups.
Open Scope nat_scope.

(** every label is in use, and the silhouettes computed in exact arithmetic are those of the textbook *)
Definition judged {Nt Ls : Type} `{HLL : LossLaws Nt Ls} (M : Mat Nt) (n k : nat) (v : diss) (assi : list nat) : Prop :=
  length assi = n /\ dense k assi /\
  exists (value : Ls) vec, silhouette M assi true = Ok (value, vec) /\ silhouette M assi false = Ok (value, []) /\
    par_silhouette M assi = Ok value /\ (vL value == sil_mean v assi)%Q /\ (-1 <= vL value <= 1)%Q /\
    length vec = n /\ forall i, i < n -> (vL (nth i vec lzero) == sil_object v assi i)%Q.

Lemma own_dense k med assi n : length med = k -> (forall m, In m med -> m < n) -> length assi = n ->
  (forall o, o < n -> nth o assi 0 < k) -> (forall c, c < k -> nth (nth c med 0) assi 0 = c) -> dense k assi.
Proof.
  intros hl hin ha hlt hown c. split.
  - intros hc. apply (In_nth _ _ 0) in hc as (o & ho & <-). apply hlt. lia.
  - intros hc. rewrite <- (hown c hc). apply nth_In. rewrite ha. apply hin, nth_In. lia.
Qed.
Lemma nearest_lt v o med a : nearest v o med a -> a < length med.
Proof. intros h. apply h. Qed.
Lemma well_dense {Lt} n k v (r : pam_result Lt) : well_assigned n k v r -> length (r_assi r) = n /\ dense k (r_assi r).
Proof.
  intros ((m1 & m2 & m3) & a & hn & ho). split; [exact a|]. apply (own_dense k (r_med r) _ n); auto.
  intros o h. rewrite <- m1. apply (nearest_lt v o). auto.
Qed.

Lemma dense_judged {Nt Ls : Type} `{HDL : DivLaws Nt Ls} (M : Mat Nt) n D k assi :
  nonneg_matrix M n D -> (N.of_nat n <= 4294967295)%N -> 2 <= k -> length assi = n -> dense k assi ->
  judged (Ls := Ls) M n k (vals D) assi.
Proof.
  intros hd hn hk hl hde. destruct (dense_two k assi hk hde) as [hw h1]. split; [exact hl|]. split; [exact hde|].
  destruct (C20_silhouette_definition (Lt := Ls) M n D assi k true hd hl hn hk hde) as (value & vec & e & h2 & h3).
  destruct (C21_silhouette_range (Lt := Ls) M n D assi hd ltac:(lia) hn) as (value' & vec' & e' & e2 & _ & _ & h4 & _).
  rewrite e in e'. injection e' as <- <-. destruct (h3 eq_refl) as [h5 h6]. exists value, vec.
  split; [exact e|]. split; [exact e2|].
  split; [rewrite (par_silhouette_eq M assi true hw), e; reflexivity|]. auto.
Qed.

(** C79.  The algorithms based on the total deviation, whatever the loss type does (rounding, wrapping around); the
    silhouette is computed in another type, with exact arithmetic. *)
Theorem C79_swap_algorithms {Nt Lt Ls : Type} `{HO : OrdLaws Nt} `{HL : NumL Lt} `{HF : FromN Nt Lt}
    `{HL' : NumL Ls} `{HF' : !FromN Nt Ls} `{HLL : !LossLaws Nt Ls} `{HDL : !DivLaws Nt Ls}
    (M : Mat Nt) n D med maxiter order orc :
  diss_matrix M n D -> sizes n (length med) -> medoids n (length med) med -> 2 <= length med ->
  (forall j, In j order -> j < n) -> lfrom (nzero : Nt) = (lzero : Lt) -> lltb (lzero : Lt) lzero = false ->
  forall m : res (pam_result Lt),
    In m [fasterpam M med maxiter; rand_fasterpam M order med maxiter; par_fasterpam M orc order med maxiter;
          fastpam1 M med maxiter; pam_swap M med maxiter; alternating M med maxiter] ->
  exists r, m = Ok r /\ judged (Ls := Ls) M n (length med) (vals D) (r_assi r).
Proof.
  intros hd hs hm hk ho hz hi m hin.
  assert (J : forall r : pam_result Lt, well_assigned n (length med) (vals D) r -> judged (Ls := Ls) M n (length med) (vals D) (r_assi r)).
  { intros r hr. destruct (well_dense n (length med) (vals D) r hr) as [h1 h2].
    apply dense_judged; auto; [apply diss_nonneg; exact hd|apply hs]. }
  destruct (C40_fasterpam (Lt := Lt) M n D med maxiter order hd hs hm ho) as (r1 & r2 & e1 & e2 & w1 & w2 & _).
  destruct (C40_par_fasterpam (Lt := Lt) M n D med maxiter order orc hd hs hm ho) as (r3 & e3 & w3 & _).
  destruct (C40_fastpam1_pam (Lt := Lt) M n D med maxiter hd hs hm hz hi) as (r4 & r5 & e4 & e5 & w4 & w5 & _).
  destruct (C40_alternating (Lt := Lt) M n D med maxiter hd hs hm) as (r6 & e6 & w6 & _).
  cbn [In] in hin. destruct hin as [<-|[<-|[<-|[<-|[<-|[<-|[]]]]]]]; eexists; (split; [eassumption|apply J; assumption]).
Qed.
Print Assumptions C79_swap_algorithms.

(** Likewise the algorithms based on the medoid silhouette.  With two medoids, fastermsc and fastmsc need that objects differ. *)
Definition distinct_objects (n : nat) (v : diss) : Prop := forall i j, i < n -> j < n -> i <> j -> (0 < v i j)%Q.
Theorem C79_any_loss {Nt Lt Ls : Type} `{HO : OrdLaws Nt} `{HL : NumL Lt} `{HF : FromN Nt Lt}
    `{HL' : NumL Ls} `{HF' : !FromN Nt Ls} `{HLL : !LossLaws Nt Ls} `{HDL : !DivLaws Nt Ls}
    (M : Mat Nt) n D med maxiter :
  diss_matrix M n D -> sizes n (length med) -> medoids n (length med) med -> 2 <= length med ->
  lltb (lzero : Lt) lzero = false -> lltb (lzero : Lt) (ladd lzero lzero) = false ->
  forall m : res (pam_result Lt),
    m = pammedsil_swap M med maxiter \/
    ((3 <= length med \/ distinct_objects n (vals D)) /\ In m [fastermsc M med maxiter; fastmsc M med maxiter]) ->
  exists r, m = Ok r /\ judged (Ls := Ls) M n (length med) (vals D) (r_assi r).
Proof.
  intros hd hs hm hk hi hi2 m hin.
  assert (J : forall r : pam_result Lt, well_assigned n (length med) (vals D) r -> judged (Ls := Ls) M n (length med) (vals D) (r_assi r)).
  { intros r hr. destruct (well_dense n (length med) (vals D) r hr) as [h1 h2].
    apply dense_judged; auto; [apply diss_nonneg; exact hd|apply hs]. }
  destruct (C40_medoid_silhouette (Lt := Lt) M n D med maxiter hd hs hm hk hi hi2) as [(r7 & e7 & w7) hmsc].
  destruct hin as [->|[hc hin]]; [exists r7; auto|].
  destruct (hmsc hc) as (r8 & r9 & e8 & e9 & w8 & w9). cbn [In] in hin.
  destruct hin as [<-|[<-|[]]]; eexists; (split; [eassumption|apply J; assumption]).
Qed.
Print Assumptions C79_any_loss.

(** PAM with BUILD, if it found at least two medoids. *)
Theorem C79_pam {Nt Lt Ls : Type} `{HLL : LossLaws Nt Lt} `{HL' : NumL Ls} `{HF' : !FromN Nt Ls} `{HLL' : !LossLaws Nt Ls} `{HDL : !DivLaws Nt Ls}
    (M : Mat Nt) n D k maxiter :
  diss_matrix M n D -> sizes n k ->
  exists (r : pam_result Lt) loss assi meds, pam M k maxiter = Ok r /\ pam_build (Lt := Lt) M k = Ok (loss, assi, meds) /\
    (2 <= length meds -> judged (Ls := Ls) M n (length meds) (vals D) (r_assi r)).
Proof.
  intros hd hs.
  destruct (C17_pam_is_build_swap (Lt := Lt) M n D k maxiter hd hs)
    as (r & r' & l & a & ms & f1 & f2 & f3 & g1 & g2 & _).
  exists r, l, a, ms. split; [exact f1|]. split; [exact f2|]. intros h2.
  destruct (C16_pam_build (Lt := Lt) M n D k hd hs) as (l' & a' & ms' & eb & c1 & c2 & c3 & _).
  rewrite f2 in eb. injection eb as <- <- <-.
  assert (hs' : sizes n (length ms)) by (unfold sizes in *; lia).
  destruct (C14_steepest_descent (Lt := Lt) M n D ms maxiter hd hs' (conj eq_refl (conj c2 c3)) (or_introl h2))
    as (q & _ & e & (m1 & m2 & m3) & b2 & b3 & b4 & _).
  rewrite f3 in e. injection e as <-. rewrite g2.
  apply dense_judged; auto; [apply diss_nonneg; exact hd|apply hs|]. apply (own_dense _ (r_med r') _ n); auto.
  intros o h. rewrite <- m1. apply (nearest_lt (vals D) o). auto.
Qed.
Print Assumptions C79_pam.

Theorem C79_pammedsil {Nt Lt : Type} `{HLL : LossLaws Nt Lt} `{HAL : !AddLaws Nt} `{HDL : !DivLaws Nt Lt}
    (M : Mat Nt) n D k maxiter :
  diss_matrix M n D -> sizes n k ->
  exists r : pam_result Lt, pammedsil M k maxiter = Ok r /\
    (2 <= length (r_med r) -> judged (Ls := Lt) M n (length (r_med r)) (vals D) (r_assi r)).
Proof.
  intros hd hs. destruct (C32_build_greedy_but_0 (Lt := Lt) M n D k maxiter hd hs) as (meds & r & r' & e & _).
  exists r. split; [exact e|]. intros h2.
  destruct (C24_pammedsil_value (Lt := Lt) M n D k maxiter r hd hs e h2) as (_ & ((m1 & m2 & m3) & a1 & a2) & ow & _).
  apply dense_judged; auto; [apply diss_nonneg; exact hd|apply hs|].
  apply (own_dense _ (r_med r) _ n); auto. intros o h. apply (nearest_lt (vals D) o). apply a2. exact h.
Qed.
Print Assumptions C79_pammedsil.

Theorem C79_dynmsc {Nt Lt : Type} `{HLL : LossLaws Nt Lt} `{HAL : !AddLaws Nt} `{HDL : !DivLaws Nt Lt}
    (M : Mat Nt) n D med mink maxiter :
  diss_matrix M n D -> sizes n (length med) -> medoids n (length med) med -> 2 <= length med ->
  exists r : dyn_result Lt, dynmsc M med mink maxiter = Ok r /\
    let p := d_res r in let c := length (r_med p) in
    2 <= c /\ (3 <= c \/ distinct_objects n (vals D) -> judged (Ls := Lt) M n c (vals D) (r_assi p)).
Proof.
  intros hd hs hm hk.
  destruct (C30_dynmsc_best (Lt := Lt) M n D med mink maxiter hd hs hm hk)
    as (r & f & e & _ & _ & _ & _ & _ & h2 & _ & (m1 & m2 & m3) & a1 & a2 & ow & _).
  exists r. split; [exact e|]. cbv zeta. split; [lia|]. intros hc.
  assert (ow' : forall i, i < length (r_med (d_res r)) -> nth (nth i (r_med (d_res r)) 0) (r_assi (d_res r)) 0 = i).
  { destruct (Nat.eq_dec (length (r_med (d_res r))) 2) as [el|nl]; [|apply ow; lia].
    destruct hc as [hc|hpos]; [lia|].
    destruct (C31_dynmsc_value (Lt := Lt) M n D med mink maxiter r hd hs hm hk e ltac:(auto)) as (_ & hn & _).
    intros i hi. apply (MscMain.nearest_own hd (med := r_med (d_res r))); auto.
    - split; auto.
    - intros c' hc' hne. apply hpos; try (apply m3, nth_In; lia).
      intros e'. apply hne. symmetry. apply (proj1 (NoDup_nth (r_med (d_res r)) 0) m2); auto; lia. }
  apply dense_judged; auto; [apply diss_nonneg; exact hd|apply hs|lia|].
  apply (own_dense _ (r_med (d_res r)) _ n); auto.
Qed.
Print Assumptions C79_dynmsc.

(** ** Well separated groups *)

(** at least two groups, none with one object only; [q] is the ratio of the largest distance within a group to the
    smallest between groups *)
Definition separated_by (n k : nat) (v : diss) (g : nat -> nat) (e q : Q) : Prop :=
  exists d s, groups n k v g d s /\ alike n v g d /\ (inject_Z (Z.of_nat n) * d + e < s)%Q /\ (q == d / s)%Q.
Lemma separated_by_separated n k v g e q : separated_by n k v g e q -> separated n k v g e.
Proof. intros (d & s & h1 & h2 & h3 & _). exists d, s. auto. Qed.

Lemma groups_value n k v g e q med assi : dissimilarity n v -> (0 <= e)%Q -> separated_by n k v g e q -> 2 <= k ->
  length assi = n -> recovers n g med assi -> no_singletons n g -> (1 - q <= sil_mean v assi)%Q.
Proof.
  intros hv he (d & s & hg & ha & hs & hq) hk hl [hr _] hns. rewrite hq. apply (groups_sil_mean n k v g d s); auto.
  pose proof (d_le_nd n k v g d s hv hg ltac:(lia)). lra.
Qed.

(** C79.  After one pass of fasterpam over all objects (in any order) the silhouette is at least [1 - q], and so is the
    medoid silhouette (of groups of any size). *)
Theorem C79_groups {Nt Lt Ls : Type} `{HLL : LossLaws Nt Lt} `{HL' : NumL Ls} `{HF' : !FromN Nt Ls} `{HLL' : !LossLaws Nt Ls} `{HDL : !DivLaws Nt Ls}
    (M : Mat Nt) n D g q med maxiter order orc :
  diss_matrix M n D -> sizes n (length med) -> medoids n (length med) med -> 2 <= length med ->
  separated_by n (length med) (vals D) g 0 q -> Permutation order (seq 0 n) -> valid_oracle orc -> 1 <= maxiter ->
  forall m : res (pam_result Lt), In m [fasterpam M med maxiter; rand_fasterpam M order med maxiter; par_fasterpam M orc order med maxiter] ->
  exists (r : pam_result Lt) (s s' : Ls), m = Ok r /\ silhouette M (r_assi r) false = Ok (s, []) /\ par_silhouette M (r_assi r) = Ok s /\
    medoid_silhouette M (r_med r) false = Ok (s', []) /\
    (no_singletons n g -> (1 - q <= vL s)%Q) /\ (1 - q <= vL s')%Q.
Proof.
  intros hd hs hm hk hsep hp hor hmi m hin.
  pose proof (diss_dissimilarity M n D hd) as hv. pose proof (separated_by_separated _ _ _ _ _ _ hsep) as hse.
  assert (K : forall (r : pam_result Lt), medoids n (length med) (r_med r) -> length (r_assi r) = n ->
    (forall o, o < n -> nearest (vals D) o (r_med r) (nth o (r_assi r) 0)) ->
    (forall c, c < length med -> nth (nth c (r_med r) 0) (r_assi r) 0 = c) -> recovers n g (r_med r) (r_assi r) ->
    exists s s' : Ls, silhouette M (r_assi r) false = Ok (s, []) /\ par_silhouette M (r_assi r) = Ok s /\
    medoid_silhouette M (r_med r) false = Ok (s', []) /\ (no_singletons n g -> (1 - q <= vL s)%Q) /\ (1 - q <= vL s')%Q).
  { intros r (m1 & m2 & m3) a1 a2 ow hr.
    assert (hde : dense (length med) (r_assi r)).
    { apply (own_dense _ (r_med r) _ n); auto. intros o h. rewrite <- m1. apply (nearest_lt (vals D) o). auto. }
    destruct (dense_judged (Ls := Ls) M n D (length med) (r_assi r) (diss_nonneg _ _ _ hd) (proj1 (proj2 hs)) hk a1 hde)
      as (_ & _ & s & vec & _ & e1 & e2 & e3 & _).
    destruct (C23_medoid_silhouette (Lt := Ls) M n D (r_med r) false (diss_nonneg _ _ _ hd) ltac:(unfold sizes in hs; lia) (proj1 (proj2 hs)) m3)
      as (s' & vec' & f1 & f2 & _ & f3 & _).
    destruct vec'; [|discriminate f3]. exists s, s'. split; [exact e1|]. split; [exact e2|]. split; [exact f1|]. split.
    - intros hns. rewrite e3. exact (groups_value n (length med) (vals D) g 0 q (r_med r) (r_assi r) hv ltac:(lra) hsep hk a1 hr hns).
    - rewrite f2. destruct hsep as (d & sp & hg & ha & hlt & hq). rewrite hq.
      apply (groups_med_sil n (length med) (vals D) g d sp); auto.
      + pose proof (d_le_nd n (length med) (vals D) g d sp hv hg ltac:(lia)). lra.
      + intros i hi. exists (nth (nth i (r_assi r) 0) (r_med r) 0). split; [|apply (proj2 hr); exact hi].
        apply nth_In. apply (nearest_lt (vals D) i). auto. }
  assert (ho : forall j, In j order -> j < n).
  { intros j hj. apply (Permutation_in _ hp) in hj. apply in_seq in hj. lia. }
  assert (R : forall order', Permutation order' (seq 0 n) -> exists r r' : pam_result Lt,
    rand_fasterpam M order' med maxiter = Ok r /\ par_fasterpam M orc order' med maxiter = Ok r' /\
    forall x, x = r \/ x = r' -> exists s s' : Ls, silhouette M (r_assi x) false = Ok (s, []) /\ par_silhouette M (r_assi x) = Ok s /\
      medoid_silhouette M (r_med x) false = Ok (s', []) /\ (no_singletons n g -> (1 - q <= vL s)%Q) /\ (1 - q <= vL s')%Q).
  { intros order' hp'.
    destruct (C78_one_pass (Lt := Lt) M n D g med maxiter order' orc hd hs hm hse hp' hor hmi) as (r & r' & e1 & e2 & h1 & h2).
    destruct (C12_rand_fasterpam (Lt := Lt) M n D order' med maxiter hd hs hm (or_introl hk) hp')
      as (q1 & f1 & c1 & c2 & c3 & c4 & _).
    assert (ho' : forall j, In j order' -> j < n).
    { intros j hj. apply (Permutation_in _ hp') in hj. apply in_seq in hj. lia. }
    destruct (C13_schedule_independent (Lt := Lt) M n D orc order' med maxiter hd hs hm ho' hor)
      as (q2 & q3 & f2 & f3 & d3 & d4 & _).
    rewrite e1 in f1, f2. injection f1 as <-. injection f2 as <-. rewrite e2 in f3. injection f3 as <-.
    exists r, r'. split; [exact e1|]. split; [exact e2|]. intros x [->| ->]; apply K; rewrite <- ?d3, <- ?d4; auto. }
  destruct (R (seq 0 n) (Permutation_refl _)) as (r1 & r1' & e1 & _ & h1). destruct (R order hp) as (r2 & r3 & e2 & e3 & h2).
  assert (ef : fasterpam (Lt := Lt) M med maxiter = rand_fasterpam M (seq 0 n) med maxiter).
  { unfold fasterpam. rewrite (proj1 (proj1 hd)). reflexivity. }
  cbn [In] in hin. destruct hin as [<-|[<-|[<-|[]]]].
  - destruct (h1 r1 (or_introl eq_refl)) as (s & s' & h). exists r1, s, s'. split; [rewrite ef; exact e1|exact h].
  - destruct (h2 r2 (or_introl eq_refl)) as (s & s' & h). exists r2, s, s'. split; [exact e2|exact h].
  - destruct (h2 r3 (or_intror eq_refl)) as (s & s' & h). exists r3, s, s'. split; [exact e3|exact h].
Qed.
Print Assumptions C79_groups.

(** ** The same in binary64 *)

(** the silhouettes computed in binary64 agree with those of the textbook up to rounding *)
Definition judged64 {Nt : Type} `{HO : OrdLaws Nt} `{HF : FromN Nt f64} (M : Mat Nt) (n k : nat) (v : diss) (assi : list nat) : Prop :=
  length assi = n /\ dense k assi /\
  exists (value : f64) vec, silhouette M assi true = Ok (value, vec) /\ par_silhouette M assi = Ok value /\
    finite_in (-1) 1 value /\ off_by (mean_rounding n) (sil_mean v assi) value /\
    length vec = n /\ forall i, i < n -> off_by (object_rounding n) (sil_object v assi i) (nth i vec lzero).
Lemma dense_judged64 {Nt : Type} `{HO : OrdLaws Nt} `{HF : FromN Nt f64} (M : Mat Nt) n D k assi :
  nonneg_matrix M n D -> exact_from n D -> normal_range n D -> (N.of_nat n <= 4294967295)%N -> 2 <= k -> length assi = n ->
  dense k assi -> judged64 M n k (vals D) assi.
Proof.
  intros hd he hr hn hk hl hde. split; [exact hl|]. split; [exact hde|].
  destruct (C66_silhouette M n D assi k true hd he hr hl hn hk hde) as (value & vec & e & h1 & h2 & h3).
  destruct (h3 eq_refl) as [h4 h5]. destruct (dense_two k assi hk hde) as [hw _]. exists value, vec. split; [exact e|].
  split; [rewrite (par_silhouette_eq M assi true hw), e; reflexivity|]. split; [exact h1|]. split; [exact h2|].
  split; [exact h4|]. intros i hi. apply h5. exact hi.
Qed.

Theorem C79_f64 {Nt Lt : Type} `{HO : OrdLaws Nt} `{HL : NumL Lt} `{HF : FromN Nt Lt} `{HF' : !FromN Nt f64}
    (M : Mat Nt) n D med maxiter order orc :
  diss_matrix M n D -> exact_from n D -> normal_range n D -> sizes n (length med) -> medoids n (length med) med -> 2 <= length med ->
  (forall j, In j order -> j < n) -> lfrom (nzero : Nt) = (lzero : Lt) -> lltb (lzero : Lt) lzero = false ->
  lltb (lzero : Lt) (ladd lzero lzero) = false ->
  forall m : res (pam_result Lt),
    In m [fasterpam M med maxiter; rand_fasterpam M order med maxiter; par_fasterpam M orc order med maxiter;
          fastpam1 M med maxiter; pam_swap M med maxiter; alternating M med maxiter; pammedsil_swap M med maxiter] \/
    ((3 <= length med \/ distinct_objects n (vals D)) /\ In m [fastermsc M med maxiter; fastmsc M med maxiter]) ->
  exists r, m = Ok r /\ judged64 M n (length med) (vals D) (r_assi r).
Proof.
  intros hd he hr hs hm hk ho hz hi hi2 m hin.
  assert (J : forall r : pam_result Lt, well_assigned n (length med) (vals D) r -> judged64 M n (length med) (vals D) (r_assi r)).
  { intros r hw. destruct (well_dense n (length med) (vals D) r hw) as [h1 h2].
    apply dense_judged64; auto; [apply diss_nonneg; exact hd|apply hs]. }
  destruct (C40_fasterpam (Lt := Lt) M n D med maxiter order hd hs hm ho) as (r1 & r2 & e1 & e2 & w1 & w2 & _).
  destruct (C40_par_fasterpam (Lt := Lt) M n D med maxiter order orc hd hs hm ho) as (r3 & e3 & w3 & _).
  destruct (C40_fastpam1_pam (Lt := Lt) M n D med maxiter hd hs hm hz hi) as (r4 & r5 & e4 & e5 & w4 & w5 & _).
  destruct (C40_alternating (Lt := Lt) M n D med maxiter hd hs hm) as (r6 & e6 & w6 & _).
  destruct (C40_medoid_silhouette (Lt := Lt) M n D med maxiter hd hs hm hk hi hi2) as [(r7 & e7 & w7) hmsc].
  destruct hin as [hin|[hc hin]].
  - cbn [In] in hin. destruct hin as [<-|[<-|[<-|[<-|[<-|[<-|[<-|[]]]]]]]]; eexists; (split; [eassumption|apply J; assumption]).
  - destruct (hmsc hc) as (r8 & r9 & e8 & e9 & w8 & w9). cbn [In] in hin.
    destruct hin as [<-|[<-|[]]]; eexists; (split; [eassumption|apply J; assumption]).
Qed.
Print Assumptions C79_f64.

(** likewise pammedsil with its own initial medoids (it may find fewer than [k]), and dynmsc *)
Theorem C79_f64_pammedsil {Nt : Type} `{HO : OrdLaws Nt} `{HF : FromN Nt f64} (M : Mat Nt) n D k maxiter mx :
  diss_matrix M n D -> exact_from n D -> normal_range n D -> at_most n D mx -> sizes n k ->
  exists r : pam_result f64, pammedsil M k maxiter = Ok r /\ 1 <= length (r_med r) <= k /\
    (2 <= length (r_med r) -> judged64 M n (length (r_med r)) (vals D) (r_assi r)).
Proof.
  intros HD he hr [hb hmx] hs. assert (hn : 1 <= n) by (destruct hs; lia). assert (hk : 1 <= k) by (destruct hs; lia).
  assert (hn32 : (N.of_nat n <= 4294967295)%N) by apply hs. pose proof (proj1 HD) as HM.
  pose proof (build3_all_near HD he hmx hb hn hn32 hk) as h. apply oks_inv in h as (st & e & l & hl & hg & _).
  assert (ep : pammedsil M k maxiter = pammedsil_optimize M (b3_meds st) (b3_data st) maxiter (b3_loss st)).
  { unfold pammedsil. rewrite (check_input_ok HM hs). cbn [bind]. rewrite e. reflexivity. }
  rewrite ep. clear ep. pose proof (b3n_len hg) as h1. unfold pammedsil_optimize. rewrite h1.
  destruct (Nat.eq_dec l 1) as [->|hl2].
  - cbn [Nat.eqb].
    pose proof (single_medoid_near HD (exact_in_f64 he) hmx (f64_room n hn32 hb) hn (f64_few n hn32) (med := b3_meds st) h1 (b3n_inr hg)) as hsm.
    apply oks_inv in hsm as (r & er & _ & _ & m0 & _ & hm0 & _). exists r. split; [exact er|].
    rewrite hm0. cbn [length]. split; [lia|lia].
  - replace (l =? 1) with false by (symmetry; apply Nat.eqb_neq; lia).
    pose proof (build3_q HD hn hn32 (ltac:(lia) : 2 <= l) hg) as hq.
    assert (hw : oks (whileM maxiter (pms_iteration M) (mkM (b3_meds st) (b3_data st) [] (b3_loss st) 0 0 0)) (MscAny.own_inv n D l)).
    { apply whileM_oks with (I := fun i st => MscAny.own_inv n D l st); auto.
      - destruct hq. constructor; auto.
      - intros i s hlt g. eapply oks_mono; [apply (fun hz => MscAny.pms_iteration_own HD hz hn (ltac:(lia) : 2 <= l) g); reflexivity|].
        intros [s'|s'] g'; exact g'. }
    apply oks_inv in hw as (s & es & hi). rewrite es. cbn [bind]. eexists. split; [reflexivity|]. cbn [r_med r_assi].
    pose proof (MscAny.own_fits HD hi) as hf. destruct hf as ((f1 & f2 & f3) & f4 & f5 & f6). rewrite f1. split; [lia|].
    intros h2. apply dense_judged64 with (D := D); auto; [apply diss_nonneg; exact HD|].
    apply (own_dense l (m_med s) _ n); auto. intros o ho. rewrite <- f1. apply (nearest_lt (vals D) o). auto.
Qed.
Print Assumptions C79_f64_pammedsil.

Theorem C79_f64_dynmsc {Nt : Type} `{HO : OrdLaws Nt} `{HF : FromN Nt f64} (M : Mat Nt) n D med mink maxiter :
  diss_matrix M n D -> exact_from n D -> normal_range n D -> sizes n (length med) -> medoids n (length med) med -> 2 <= length med ->
  exists r : dyn_result f64, dynmsc M med mink maxiter = Ok r /\
    let p := d_res r in let c := length (r_med p) in
    2 <= c /\ (3 <= c \/ distinct_objects n (vals D) -> judged64 M n c (vals D) (r_assi p)).
Proof.
  intros hd he hr hs hm hk.
  destruct (C65_dynmsc M n D med mink maxiter hd he hs hm hk)
    as (r & e & _ & _ & h2 & (m1 & m2 & m3) & _ & a1 & a2 & ow & _ & _ & _ & hv & _).
  exists r. split; [exact e|]. cbv zeta. split; [lia|]. intros hc.
  assert (ow' : forall i, i < length (r_med (d_res r)) -> nth (nth i (r_med (d_res r)) 0) (r_assi (d_res r)) 0 = i).
  { destruct (Nat.eq_dec (length (r_med (d_res r))) 2) as [el|nl]; [|intros i hi; apply ow; lia].
    destruct hc as [hc|hpos]; [lia|]. destruct (hv ltac:(auto)) as [_ hn].
    intros i hi. apply (MscMain.nearest_own hd (med := r_med (d_res r))); auto.
    - split; auto.
    - intros c' hc' hne. apply hpos; try (apply m3, nth_In; lia).
      intros e'. apply hne. symmetry. apply (proj1 (NoDup_nth (r_med (d_res r)) 0) m2); auto; lia. }
  apply dense_judged64 with (D := D); auto; [apply diss_nonneg; exact hd|apply hs|lia|].
  apply (own_dense _ (r_med (d_res r)) _ n); auto.
Qed.
Print Assumptions C79_f64_dynmsc.

(** Separated groups: losses and silhouettes in binary64. *)
Theorem C79_f64_groups {Nt : Type} `{HO : OrdLaws Nt} `{HF : FromN Nt f64} (M : Mat Nt) n D g q med maxiter order orc mx :
  diss_matrix M n D -> exact_from n D -> at_most n D mx -> normal_range n D -> sizes n (length med) -> medoids n (length med) med ->
  2 <= length med -> lfrom (nzero : Nt) = S754_zero false -> separated_by n (length med) (vals D) g (rounding n mx) q ->
  Permutation order (seq 0 n) -> valid_oracle orc -> 1 <= maxiter ->
  forall m : res (pam_result f64), In m [rand_fasterpam M order med maxiter; par_fasterpam M orc order med maxiter] ->
  exists (r : pam_result f64) (s s' : f64) vec, m = Ok r /\ silhouette M (r_assi r) true = Ok (s, vec) /\ par_silhouette M (r_assi r) = Ok s /\
    medoid_silhouette M (r_med r) false = Ok (s', []) /\
    (no_singletons n g -> (1 - q - mean_rounding n <= f64_val s)%Q) /\ (1 - q - mean_rounding n <= f64_val s')%Q.
Proof.
  intros hd he hmx hr hs hm hk hz hsep hp hor hmi m hin.
  pose proof (diss_dissimilarity M n D hd) as hv. pose proof (separated_by_separated _ _ _ _ _ _ hsep) as hse.
  assert (hn : 1 <= n) by (unfold sizes in hs; lia). pose proof (rounding_nonneg M n D mx hd hn hmx) as hr0.
  assert (ho : forall j, In j order -> j < n).
  { intros j hj. apply (Permutation_in _ hp) in hj. apply in_seq in hj. lia. }
  destruct (C78_f64_fasterpam M n D g med maxiter order orc mx hd he hmx hs hm hz hse hp hor hmi) as (r & r' & e & e' & (_ & f1) & (_ & f2)).
  destruct (C40_fasterpam (Lt := f64) M n D med maxiter order hd hs hm ho) as (_ & r2 & _ & e2 & _ & w2 & _).
  destruct (C40_par_fasterpam (Lt := f64) M n D med maxiter order orc hd hs hm ho) as (r3 & e3 & w3 & _).
  rewrite e in e2. injection e2 as <-. rewrite e' in e3. injection e3 as <-.
  assert (K : forall x : pam_result f64, well_assigned n (length med) (vals D) x -> recovers n g (r_med x) (r_assi x) ->
    exists (s s' : f64) vec, silhouette M (r_assi x) true = Ok (s, vec) /\ par_silhouette M (r_assi x) = Ok s /\
    medoid_silhouette M (r_med x) false = Ok (s', []) /\
    (no_singletons n g -> (1 - q - mean_rounding n <= f64_val s)%Q) /\ (1 - q - mean_rounding n <= f64_val s')%Q).
  { intros x hw hre. destruct (well_dense n (length med) (vals D) x hw) as [h1 h2]. destruct hw as ((m1 & m2 & m3) & a1 & a2 & a3).
    destruct (dense_judged64 M n D (length med) (r_assi x) (diss_nonneg _ _ _ hd) he hr (proj1 (proj2 hs)) hk h1 h2)
      as (_ & _ & s & vec & g1 & g2 & _ & g3 & _).
    assert (hk' : 2 <= length (r_med x) <= n) by (unfold sizes in hs; lia).
    destruct (C46_medoid_silhouette M n D (r_med x) false (diss_nonneg _ _ _ hd) he hk' (proj1 (proj2 hs)) m3)
      as (s' & vec' & g4 & _ & g5 & g6 & _).
    destruct vec'; [|discriminate g6]. exists s, s', vec. split; [exact g1|]. split; [exact g2|]. split; [exact g4|].
    apply Qabs_Qle_condition in g3. apply Qabs_Qle_condition in g5. split.
    - intros hns. pose proof (groups_value n (length med) (vals D) g (rounding n mx) q (r_med x) (r_assi x) hv hr0 hsep hk h1 hre hns). lra.
    - assert (hb : (1 - q <= med_sil (vals D) n (r_med x))%Q).
      { destruct hsep as (d & sp & hg & ha & hlt & hq). rewrite hq.
        apply (groups_med_sil n (length med) (vals D) g d sp); auto.
        - pose proof (d_le_nd n (length med) (vals D) g d sp hv hg ltac:(lia)). lra.
        - intros i hi. exists (nth (nth i (r_assi x) 0) (r_med x) 0). split; [|apply (proj2 hre); exact hi].
          apply nth_In. apply (nearest_lt (vals D) i). auto. }
      assert (hle : ((inject_Z (Z.of_nat n) + 7) * 2 ^ (-54) <= mean_rounding n)%Q).
      { unfold mean_rounding. assert (1 <= inject_Z (Z.of_nat n))%Q by (change 1%Q with (inject_Z 1); rewrite <- Zle_Qle; lia).
        assert (e48 : (2 ^ (-48) == 64 * 2 ^ (-54))%Q) by (vm_compute; reflexivity). rewrite e48. set (u := (2 ^ (-54))%Q). assert (0 <= u)%Q by (vm_compute; discriminate).
        clear e48. clearbody u. nra. }
      lra. }
  cbn [In] in hin. destruct hin as [<-|[<-|[]]].
  - destruct (K r w2 f1) as (s & s' & vec & h). exists r, s, s', vec. auto.
  - destruct (K r' w3 f2) as (s & s' & vec & h). exists r', s, s', vec. auto.
Qed.
Print Assumptions C79_f64_groups.

(** ** Concrete inputs *)
Definition in_order6 : forall j, In j [3; 5; 0; 1; 4; 2] -> j < 6.
Proof. intros j h. cbn in h. lia. Qed.
Definition C79_swap_case := C79_swap_algorithms (Lt := Z) (Ls := Q) m6 6 d6 [0; 1; 3] 10 [3; 5; 0; 1; 4; 2] P_Pam.orc2
  m6_diss s63 k63 le23 in_order6 eq_refl eq_refl.
Definition C79_pam_case := C79_pam (Lt := Z) (Ls := Q) m6 6 d6 3 10 m6_diss s63.
Example C79_pam_value : exists loss assi, pam_build (Lt := Z) m6 3 = Ok (loss, assi, [5; 1; 2]).
Proof. eexists. eexists. vm_compute. reflexivity. Qed.
Definition C79_any_loss_case := C79_any_loss (Lt := f64) (Ls := Q) m6 6 d6 [0; 1; 3] 10 m6_diss s63 k63 le23 eq_refl eq_refl.
Definition C79_any_loss_two := C79_any_loss (Lt := f64) (Ls := Q) m5 5 d5 [0; 1] 10 m5_diss s52 k52 (le_n 2) eq_refl eq_refl.
Definition C79_two_distinct : distinct_objects 5 (vals d5) := m5_pos.
Definition C79_pammedsil_case := C79_pammedsil (Lt := Q) m6 6 d6 3 10 m6_diss s63.
Example C79_pammedsil_value : exists r : pam_result Q, pammedsil m6 3 10 = Ok r /\ length (r_med r) = 3.
Proof. eexists. split; vm_compute; reflexivity. Qed.
Definition C79_dynmsc_case := C79_dynmsc (Lt := Q) m6 6 d6 [0; 1; 3] 2 10 m6_diss s63 k63 le23.

(** three groups of two objects each *)
Definition rows_p : list (list Z) := line [40; 0; 90; 2; 42; 91]%Z.
Definition pairs6 (i : nat) : nat := nth i [1; 0; 2; 0; 1; 2] 0.
Lemma p_diss : diss_matrix (mat_of_rows rows_p) 6 (entries rows_p).
Proof. apply rows_diss; [lia|reflexivity]. Qed.
Lemma p_pairs : no_singletons 6 pairs6.
Proof.
  intros i hi. do 6 (destruct i; [first [exists 3; split; [lia|split; [lia|reflexivity]]|exists 1; split; [lia|split; [lia|reflexivity]]
    |exists 4; split; [lia|split; [lia|reflexivity]]|exists 0; split; [lia|split; [lia|reflexivity]]
    |exists 5; split; [lia|split; [lia|reflexivity]]|exists 2; split; [lia|split; [lia|reflexivity]]]|]). lia.
Qed.
Lemma sep_by_entries n k v g d s e : sepQ_b n k v g d s e = true -> separated_by n k v g e (d / s).
Proof. intros h. destruct (sep_entries_at n k v g d s e h) as (h1 & h2 & h3). exists d, s. repeat (split; [assumption|]). reflexivity. Qed.
Lemma p_sep : separated_by 6 3 (vals (entries rows_p)) pairs6 0 (2 / 38).
Proof. apply sep_by_entries. vm_compute. reflexivity. Qed.
Definition C79_groups_case := C79_groups (Lt := Z) (Ls := Q) (mat_of_rows rows_p) 6 (entries rows_p) pairs6 (2 / 38) [1; 3; 5] 1 [3; 5; 0; 1; 4; 2] P_Pam.orc2
  p_diss s63 k135 le23 p_sep perm6 orc2_ok (le_n 1).
Example C79_groups_value : exists r : pam_result Z, fasterpam (mat_of_rows rows_p) [1; 3; 5] 1 = Ok r /\
  exists s : Q, silhouette (mat_of_rows rows_p) (r_assi r) false = Ok (s, []) /\ (19 # 20 <= s)%Q.
Proof. eexists. split; [vm_compute; reflexivity|]. eexists. split; vm_compute; [reflexivity|discriminate]. Qed.

(** in tenths *)
Definition C79_f64_case := C79_f64 (Lt := f64) m6 6 d6 [0; 1; 3] 10 [3; 5; 0; 1; 4; 2] P_Pam.orc2
  m6_diss d6_exact d6_range s63 k63 le23 in_order6 eq_refl eq_refl eq_refl.
Definition C79_f64_pammedsil_case := C79_f64_pammedsil m6 6 d6 3 10 20 m6_diss d6_exact d6_range d6_at_most s63.
Definition C79_f64_dynmsc_case := C79_f64_dynmsc m6 6 d6 [0; 1; 3] 2 10 m6_diss d6_exact d6_range s63 k63 le23.
Definition rows_pf : list (list f64) := Eval vm_compute in map (map tenth) rows_p.
Lemma pf_diss : diss_matrix (mat_of_rows rows_pf) 6 (fentries rows_pf).
Proof. apply frows_diss; [lia|vm_compute; reflexivity]. Qed.
Lemma pf_at_most : at_most 6 (fentries rows_pf) 10.
Proof.
  split; [vm_compute; discriminate|]. intros x y hx hy.
  do 6 (destruct x; [do 6 (destruct y; [vm_compute; discriminate|]); lia|]). lia.
Qed.
Lemma pf_range : normal_range 6 (fentries rows_pf).
Proof.
  intros x y hx hy. do 6 (destruct x; [do 6 (destruct y; [split; [first [left; vm_compute; reflexivity|right; vm_compute; discriminate]|vm_compute; discriminate]|]); lia|]). lia.
Qed.
Lemma pf_sep : separated_by 6 3 (vals (fentries rows_pf)) pairs6 (rounding 6 10) ((21 # 100) / (37 # 10)).
Proof. apply sep_by_entries. vm_compute. reflexivity. Qed.
Definition C79_f64_groups_case := C79_f64_groups _ 6 _ pairs6 _ [1; 3; 5] 1 [3; 5; 0; 1; 4; 2] P_Pam.orc2 10
  pf_diss (f64_exact_from _ _ _ (diss_nonneg _ _ _ pf_diss)) pf_at_most pf_range s63 k135 le23 eq_refl pf_sep perm6 orc2_ok (le_n 1).

(** With two medoids and duplicate objects, a label may be unused by fastermsc and fastmsc, and the silhouette of their
    result is -1 (of a single cluster, its value is undefined); PAMMEDSIL and fasterpam are not affected. *)
Definition rows_dup : list (list Z) := [[0; 0; 1]; [0; 0; 1]; [1; 1; 0]]%Z.
Theorem C79_k2_refuted : exists (M : Mat Z) D (r1 r2 r3 : pam_result Q) (r4 : pam_result Z) v3 v4,
  diss_matrix M 3 D /\ medoids 3 2 [0; 1] /\
  fastermsc M [0; 1] 0 = Ok r1 /\ fastmsc M [0; 1] 0 = Ok r2 /\ pammedsil_swap M [0; 1] 0 = Ok r3 /\ fasterpam M [0; 1] 0 = Ok r4 /\
  ~ dense 2 (r_assi r1) /\ ~ dense 2 (r_assi r2) /\ dense 2 (r_assi r3) /\ dense 2 (r_assi r4) /\
  silhouette (Lt := Q) M (r_assi r1) false = Ok ((-1)%Q, []) /\ silhouette (Lt := Q) M (r_assi r2) false = Ok ((-1)%Q, []) /\
  silhouette (Lt := Q) M (r_assi r3) false = Ok (v3, []) /\ silhouette (Lt := Q) M (r_assi r4) false = Ok (v4, []) /\
  (-1 < v3)%Q /\ (-1 < v4)%Q.
Proof.
  exists (mat_of_rows rows_dup), (entries rows_dup). do 6 eexists.
  split; [apply rows_diss; [lia|reflexivity]|]. split; [apply meds_ok; reflexivity|].
  split; [vm_compute; reflexivity|]. split; [vm_compute; reflexivity|]. split; [vm_compute; reflexivity|]. split; [vm_compute; reflexivity|].
  cbn [r_assi]. split; [intros h; destruct (proj2 (h 0) ltac:(lia)) as [c|[c|[c|[]]]]; discriminate c|].
  split; [intros h; destruct (proj2 (h 0) ltac:(lia)) as [c|[c|[c|[]]]]; discriminate c|].
  split; [intros c; cbn; lia|]. split; [intros c; cbn; lia|].
  split; [vm_compute; reflexivity|]. split; [vm_compute; reflexivity|]. split; [vm_compute; reflexivity|]. split; [vm_compute; reflexivity|].
  split; vm_compute; reflexivity.
Qed.
Print Assumptions C79_k2_refuted.
