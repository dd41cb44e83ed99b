(** P_FloatGroups.v -- property C78 in binary64: on data which consist of k well separated groups, the swap algorithms
    return these groups in spite of rounding.  Every theorem is followed by a concrete input which meets its hypotheses. *)
From Coq Require Import ZArith QArith Qabs Lqa Lia Permutation.
From Coq.Floats Require Import SpecFloat.
From Verif Require Import Base Num M_Mat M_Util M_Fasterpam M_Pam M_Alternating M_ParFasterpam Inst Hoare Spec SpecFacts
  Laws FloatMain FloatSil PamShape ParFacts FloatFmt FloatQuality Approx Groups GroupPass Ex P_Fasterpam P_Pam P_Float P_Bounded P_Approx P_Rounding P_Term
  P_FloatOpt P_FloatBuild P_Groups.
Open Scope nat_scope.

(** the clusters are the groups *)
Definition finds_groups {Nt} `{OrdLaws Nt} (n k : nat) (D : nat -> nat -> Nt) (g : nat -> nat) (r : pam_result f64) : Prop :=
  medoids n k (r_med r) /\ recovers n g (r_med r) (r_assi r).

Lemma rounding_nonneg {Nt : Type} `{HO : OrdLaws Nt} (M : Mat Nt) n (D : nat -> nat -> Nt) mx : diss_matrix M n D -> 1 <= n -> at_most n D mx ->
  (0 <= rounding n mx)%Q.
Proof.
  intros hd hn [_ h]. pose proof (emb_pos (proj1 (emb_vals hd)) (i := 0) (j := 0) ltac:(lia) ltac:(lia)).
  specialize (h 0 0 ltac:(lia) ltac:(lia)). unfold rounding.
  apply Qmult_le_0_compat; [|vm_compute; discriminate]. apply Qmult_le_0_compat; [|lra].
  change 0%Q with (inject_Z 0). rewrite <- Zle_Qle. lia.
Qed.

(** C78.  fasterpam and its parallel version, with any order of the candidates, from any initial medoids, for any
    number of passes. *)
Theorem C78_f64_fasterpam {Nt : Type} `{HO : OrdLaws Nt} `{HF : FromN Nt f64} (M : Mat Nt) n D g med maxiter order orc mx :
  diss_matrix M n D -> exact_from n D -> at_most n D mx -> sizes n (length med) -> medoids n (length med) med ->
  lfrom (nzero : Nt) = S754_zero false -> separated n (length med) (vals D) g (rounding n mx) ->
  Permutation order (seq 0 n) -> valid_oracle orc -> 1 <= maxiter ->
  exists r r' : pam_result f64, rand_fasterpam M order med maxiter = Ok r /\ par_fasterpam M orc order med maxiter = Ok r' /\
    finds_groups n (length med) D g r /\ finds_groups n (length med) D g r'.
Proof.
  intros hd he hmx hs hm hz (d & s & hg & ha & hse) hp hor hmi.
  assert (ho : forall j, In j order -> j < n).
  { intros j hj. apply (Permutation_in _ hp) in hj. apply in_seq in hj. lia. }
  destruct (f64_fits n D mx _ hmx hs) as (f1 & f2 & f3 & f4).
  destruct (C40_fasterpam (Lt := f64) M n D med maxiter order hd hs hm ho) as (_ & r & _ & e & _ & (a1 & a2 & a3 & a4) & _).
  destruct (C40_par_fasterpam (Lt := f64) M n D med maxiter order orc hd hs hm ho) as (r' & e' & (b1 & b2 & b3 & b4) & _).
  exists r, r'. split; [exact e|]. split; [exact e'|].
  pose proof (diss_dissimilarity M n D hd) as hv. assert (hk : 1 <= length med) by (destruct hs; lia).
  pose proof (rounding_nonneg M n D mx hd f3 hmx) as hr0.
  assert (hs' : (inject_Z (Z.of_nat n) * d < s)%Q) by lra.
  assert (G : forall q : pam_result f64, medoids n (length med) (r_med q) ->
    (forall o, o < n -> nearest (vals D) o (r_med q) (nth o (r_assi q) 0)) ->
    (2 <= length med -> covers n g (r_med q)) -> finds_groups n (length med) D g q).
  { intros q (m1 & m2 & m3) hq hc. split; [split; auto|].
    apply (covers_recovers n (length med) (vals D) g d s); auto; [lia|].
    destruct (Nat.eq_dec (length med) 1) as [h1|h1]; [apply (single_covers n (length med) (vals D) g d s); auto|].
    apply hc. lia. }
  split; apply G; auto; intros h2.
  - pose proof (rand_fasterpam_rounded (Lt := f64) hd (exact_in_f64 he) f1 f2 f3 f4 (eps_le n mx) hz hs hm h2 hg ha hse hp hmi) as h.
    apply oks_elim with (2 := e) in h. exact h.
  - pose proof (par_fasterpam_rounded (Lt := f64) hd (exact_in_f64 he) f1 f2 f3 f4 (eps_le n mx) hz hs hm h2 hg ha hse hp hmi hor) as h.
    apply oks_elim with (2 := e') in h. exact h.
Qed.
Print Assumptions C78_f64_fasterpam.

(** fastpam1 and the swap phase of PAM; no [k] medoids are better than those returned, up to rounding. *)
Definition nearly_best {Nt} `{OrdLaws Nt} (n k : nat) (D : nat -> nat -> Nt) (e : Q) (r : pam_result f64) : Prop :=
  best_of_all (vals D) n k (tdev (vals D) n (r_med r) - inject_Z (Z.of_nat k + 1) * e)%Q.

Lemma stops_finds {Nt : Type} `{HO : OrdLaws Nt} (M : Mat Nt) n (D : nat -> nat -> Nt) g k e r :
  diss_matrix M n D -> 1 <= k -> (0 <= e)%Q -> separated n k (vals D) g e -> stops_near (vals D) n k e r ->
  well_assigned n k (vals D) r -> finds_groups n k D g r /\ nearly_best n k D e r.
Proof.
  intros hd hk he (d & s & hg & ha & hse) (med0 & (p1 & p2 & p3) & h2 & _ & h4 & _) (m & a2 & a3 & a4).
  pose proof m as (m1 & m2 & m3). pose proof (diss_dissimilarity M n D hd) as hv. apply Qabs_Qle_condition in h4.
  assert (hs' : (inject_Z (Z.of_nat n) * d < s)%Q) by lra.
  assert (hc0 : covers n g med0).
  { apply (optimal_covers n k (vals D) g d s hv hg hk med0 e); auto. }
  pose proof (cover_tdev n k (vals D) g d s hg hk med0 p3 hc0) as ht.
  assert (hc : covers n g (r_med r)).
  { apply (small_covers n k (vals D) g d s); auto; [intros c; rewrite c in m1; cbn in m1; lia|]. lra. }
  split; [split; [exact m|apply (covers_recovers n k (vals D) g d s); auto; lia]|].
  intros opt ho hio.
  pose proof (optimal_best n k (vals D) g d s hv hg hk hs' med0 e p1 p3 hc0 he (fun b j hb hj _ => h2 b j hb hj) opt ho hio) as hb.
  rewrite inject_Z_plus. change (inject_Z 1) with 1%Q. lra.
Qed.

Theorem C78_f64_pam_swap {Nt : Type} `{HO : OrdLaws Nt} `{HF : FromN Nt f64} (M : Mat Nt) n D g med maxiter mx :
  diss_matrix M n D -> exact_from n D -> at_most n D mx -> sizes n (length med) -> medoids n (length med) med ->
  2 <= length med -> lfrom (nzero : Nt) = S754_zero false -> separated n (length med) (vals D) g (rounding n mx) ->
  exists r1 r2 : pam_result f64, fastpam1 M med maxiter = Ok r1 /\ pam_swap M med maxiter = Ok r2 /\
    forall r, r = r1 \/ r = r2 -> r_iter r < maxiter ->
      finds_groups n (length med) D g r /\ nearly_best n (length med) D (rounding n mx) r.
Proof.
  intros hd he hmx hs hm h2 hz hg.
  destruct (C61_fastpam1_pam M n D med maxiter mx hd he hmx hs hm h2 hz) as (r1 & r2 & e1 & e2 & h).
  assert (hz' : lfrom (nzero : Nt) = (lzero : f64)) by exact hz.
  destruct (C40_fastpam1_pam (Lt := f64) M n D med maxiter hd hs hm hz' eq_refl) as (q1 & q2 & g1 & g2 & w1 & w2 & _).
  rewrite e1 in g1. injection g1 as <-. rewrite e2 in g2. injection g2 as <-.
  assert (hk : 1 <= length med) by lia. assert (hn : 1 <= n) by (destruct hs; lia).
  pose proof (rounding_nonneg M n D mx hd hn hmx) as hr0.
  exists r1, r2. split; [exact e1|]. split; [exact e2|]. intros r hr hlt. destruct (h r hr) as [_ hst].
  apply (stops_finds M n D g (length med) _ r hd hk hr0 hg); [auto|]. destruct hr as [->| ->]; auto.
Qed.
Print Assumptions C78_f64_pam_swap.

(** BUILD alone, and PAM. *)
Theorem C78_f64_build {Nt : Type} `{HO : OrdLaws Nt} `{HF : FromN Nt f64} (M : Mat Nt) n D g k mx :
  diss_matrix M n D -> exact_from n D -> at_most n D mx -> sizes n k -> separated n k (vals D) g (rounding n mx) ->
  exists (loss : f64) assi meds, pam_build M k = Ok (loss, assi, meds) /\ medoids n k meds /\ recovers n g meds assi.
Proof.
  intros hd he hmx hs (d & s & hg & ha & hse).
  destruct (C64_build M n D k mx hd he hmx hs) as (l & a & ms & eb & c1 & c2 & c3 & c4 & c5 & c6 & c7).
  pose proof (diss_dissimilarity M n D hd) as hv. assert (hk : 1 <= k) by (destruct hs; lia). assert (hn : 1 <= n) by (destruct hs; lia).
  pose proof (rounding_nonneg M n D mx hd hn hmx) as hr0.
  assert (hs' : (inject_Z (Z.of_nat n) * d < s)%Q) by lra. pose proof c2 as (m1 & m2 & m3).
  destruct (greedy_covers n k (vals D) g d s hv hg hk hs' ms (rounding n mx) ha m3 hse hr0 c1 c3 c4) as [h1 h2].
  exists l, a, ms. split; [exact eb|]. split; [rewrite h1 in c2; exact c2|].
  apply (covers_recovers n k (vals D) g d s); auto. lia.
Qed.
Print Assumptions C78_f64_build.

Theorem C78_f64_pam {Nt : Type} `{HO : OrdLaws Nt} `{HF : FromN Nt f64} (M : Mat Nt) n D g k maxiter mx :
  diss_matrix M n D -> exact_from n D -> at_most n D mx -> sizes n k -> 2 <= k ->
  lfrom (nzero : Nt) = S754_zero false -> separated n k (vals D) g (rounding n mx) ->
  exists r : pam_result f64, pam M k maxiter = Ok r /\
    (r_iter r < maxiter -> finds_groups n k D g r /\ nearly_best n k D (rounding n mx) r).
Proof.
  intros hd he hmx hs h2 hz hg.
  destruct (C78_f64_build M n D g k mx hd he hmx hs hg) as (l & a & ms & eb & hm & hr).
  destruct (C64_pam M n D k maxiter mx hd he hmx hs hz) as (l' & a' & ms' & r & e1 & e2 & h & _).
  rewrite eb in e1. injection e1 as <- <- <-. pose proof hm as (m1 & m2 & m3). rewrite m1 in h.
  destruct (h h2) as [_ h']. exists r. split; [exact e2|]. intros hlt. destruct (h' hlt) as [hst _].
  assert (hw : well_assigned n k (vals D) r).
  { destruct (C64_pam_consistent M n D k maxiter mx hd he hmx hs) as (l' & a' & ms' & r' & e1 & e3 & w).
    rewrite eb in e1. injection e1 as <- <- <-. rewrite e2 in e3. injection e3 as <-. rewrite m1 in w. exact w. }
  assert (hn : 1 <= n) by (destruct hs; lia).
  apply (stops_finds M n D g k _ r hd ltac:(lia) (rounding_nonneg M n D mx hd hn hmx) hg hst hw).
Qed.
Print Assumptions C78_f64_pam.

(** ** Concrete inputs: the six objects of P_Groups.v, in tenths *)
Definition sepQ_b (n k : nat) (v : diss) (g : nat -> nat) (d s e : Q) : bool :=
  forallb (fun i => (g i <? k) && forallb (fun j =>
    (if g i =? g j then Qle_bool (v i j) d && forallb (fun o => Qle_bool (v o i) (v o j + d)) (seq 0 n)
     else Qle_bool s (v i j))) (seq 0 n)) (seq 0 n) &&
  forallb (fun c => existsb (fun i => g i =? c) (seq 0 n)) (seq 0 k) && negb (Qle_bool s (inject_Z (Z.of_nat n) * d + e)).
Lemma sep_entries_at n k v g d s e : sepQ_b n k v g d s e = true ->
  groups n k v g d s /\ alike n v g d /\ (inject_Z (Z.of_nat n) * d + e < s)%Q.
Proof.
  intros h. unfold sepQ_b in h. apply andb_prop in h as [h h3]. apply andb_prop in h as [h1 h2].
  assert (H : forall i, i < n -> g i < k /\ forall j, j < n ->
    (if g i =? g j then Qle_bool (v i j) d && forallb (fun o => Qle_bool (v o i) (v o j + d)) (seq 0 n)
     else Qle_bool s (v i j)) = true).
  { intros i hi. pose proof (forallb_seq _ h1 hi) as h4. cbv beta in h4. apply andb_prop in h4 as [h4 h5].
    split; [apply Nat.ltb_lt; exact h4|]. intros j hj. exact (forallb_seq _ h5 hj). }
  split; [|split].
  - split; [intros i hi; apply H; exact hi|]. split.
    { intros c hc. pose proof (forallb_seq _ h2 hc) as h4. cbv beta in h4. apply existsb_exists in h4 as (i & hi & ei).
      apply in_seq in hi. apply Nat.eqb_eq in ei. exists i. split; [lia|exact ei]. }
    split; intros i j hi hj ee; pose proof (proj2 (H i hi) j hj) as h4.
    + rewrite ee, Nat.eqb_refl in h4. apply andb_prop in h4 as [h4 _]. apply Qle_bool_iff. exact h4.
    + apply Nat.eqb_neq in ee. rewrite ee in h4. apply Qle_bool_iff. exact h4.
  - intros o x y ho hx hy ee. symmetry in ee. pose proof (proj2 (H y hy) x hx) as h4. rewrite ee, Nat.eqb_refl in h4.
    apply andb_prop in h4 as [_ h4]. pose proof (forallb_seq _ h4 ho) as h5. apply Qle_bool_iff. exact h5.
  - apply negb_true_iff in h3. apply Qnot_le_lt. intros c. apply Qle_bool_iff in c. congruence.
Qed.
Lemma sep_entries n k v g d s e : sepQ_b n k v g d s e = true -> separated n k v g e.
Proof. intros h. exists d, s. exact (sep_entries_at n k v g d s e h). Qed.

Definition rows_gf : list (list f64) := Eval vm_compute in map (map tenth) rows_g.
Lemma gf_diss : diss_matrix (mat_of_rows rows_gf) 6 (fentries rows_gf).
Proof. apply frows_diss; [lia|vm_compute; reflexivity]. Qed.
Lemma gf_at_most : at_most 6 (fentries rows_gf) 9.
Proof.
  split; [vm_compute; discriminate|]. intros x y hx hy.
  do 6 (destruct x; [do 6 (destruct y; [vm_compute; discriminate|]); lia|]). lia.
Qed.
Lemma gf_sep : separated 6 3 (vals (fentries rows_gf)) grp (rounding 6 9).
Proof. apply sep_entries with (d := (31 # 100)%Q) (s := (36 # 10)%Q). vm_compute. reflexivity. Qed.
Definition gf_exact := f64_exact_from _ _ _ (diss_nonneg _ _ _ gf_diss).
Definition C78_f64_case := C78_f64_fasterpam _ 6 _ grp [1; 3; 5] 1 [3; 5; 0; 1; 4; 2] P_Pam.orc2 9
  gf_diss gf_exact gf_at_most s63 k135 eq_refl gf_sep perm6 orc2_ok (le_n 1).
Definition C78_f64_swap_case := C78_f64_pam_swap _ 6 _ grp [1; 3; 5] 10 9 gf_diss gf_exact gf_at_most s63 k135 le23 eq_refl gf_sep.
Definition C78_f64_build_case := C78_f64_build _ 6 _ grp 3 9 gf_diss gf_exact gf_at_most s63 gf_sep.
Definition C78_f64_pam_case := C78_f64_pam _ 6 _ grp 3 10 9 gf_diss gf_exact gf_at_most s63 le23 eq_refl gf_sep.
Example C78_f64_value : exists r : pam_result f64, fastpam1 (mat_of_rows rows_gf) [1; 3; 5] 10 = Ok r /\ r_iter r < 10 /\
  r_assi r = [1; 2; 0; 2; 1; 2].
Proof. eexists. split; [vm_compute; reflexivity|]. cbn. split; [lia|reflexivity]. Qed.
