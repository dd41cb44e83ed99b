(** P_Groups.v -- property C78: on data which consist of k well separated groups, the swap algorithms
    return these groups, and the best medoids there are.
    Every theorem is followed by a concrete input which meets its hypotheses. *)
From Coq Require Import ZArith QArith Lqa Lia Permutation.
From Verif Require Import Base Num M_Mat M_Util M_Fasterpam M_Pam M_Alternating M_ParFasterpam Inst Hoare Spec SpecFacts
  Laws PamShape ParFacts Approx Groups GroupPass Ex P_Fasterpam P_Pam P_Float P_Bounded P_Approx.
Open Scope nat_scope.

(** Objects of the same group are at most [d] apart, objects of different groups more than [n * d + e],
    and every object sees the members of a group at distances which differ by at most [d] (on metric data
    the latter follows, [metric_alike]). *)
Definition separated (n k : nat) (v : diss) (g : nat -> nat) (e : Q) : Prop :=
  exists d s, groups n k v g d s /\ alike n v g d /\ (inject_Z (Z.of_nat n) * d + e < s)%Q.

(** the clusters are the groups, and no [k] medoids are better *)
Definition finds {Lt} (val : Lt -> Q) (v : diss) (n k : nat) (g : nat -> nat) (r : pam_result Lt) : Prop :=
  medoids n k (r_med r) /\ recovers n g (r_med r) (r_assi r) /\
  (val (r_loss r) == tdev v n (r_med r))%Q /\ best_of_all v n k (val (r_loss r)).

Lemma optimum_finds {Lt} (val : Lt -> Q) v n k g (r : pam_result Lt) : dissimilarity n v -> 1 <= k ->
  separated n k v g 0 -> medoids n k (r_med r) -> (forall o, o < n -> nearest v o (r_med r) (nth o (r_assi r) 0)) ->
  (val (r_loss r) == tdev v n (r_med r))%Q -> swap_optimal v n (r_med r) -> finds val v n k g r.
Proof.
  intros hv hk (d & s & hg & ha & hs) hm hn hl ho. pose proof hm as (m1 & m2 & m3).
  assert (hopt : forall b j, b < length (r_med r) -> j < n ->
                 (tdev v n (r_med r) - 0 <= tdev v n (swap (r_med r) b j))%Q).
  { intros b j hb hj. specialize (ho b j hb hj). lra. }
  assert (hs' : (inject_Z (Z.of_nat n) * d < s)%Q) by lra.
  pose proof (optimal_covers n k v g d s hv hg hk (r_med r) 0 ha m1 m3 hs hopt) as hc.
  split; [exact hm|]. split; [apply (covers_recovers n k v g d s); auto; lia|]. split; [exact hl|].
  intros opt h1 h2. rewrite hl.
  pose proof (optimal_best n k v g d s hv hg hk hs' (r_med r) 0 m1 m3 hc ltac:(lra) (fun b j hb hj _ => hopt b j hb hj) opt h1 h2).
  lra.
Qed.

Lemma diss_dissimilarity {Nt} `{OrdLaws Nt} (M : Mat Nt) n D : diss_matrix M n D -> dissimilarity n (vals D).
Proof. intros hd. apply (proj1 (emb_vals hd)). Qed.

(** C78.  fasterpam with any order of the candidates, and its parallel version, from any initial medoids. *)
Theorem C78_fasterpam {Nt Lt : Type} `{HLL : LossLaws Nt Lt} (M : Mat Nt) n D g med maxiter order orc :
  diss_matrix M n D -> sizes n (length med) -> medoids n (length med) med ->
  2 <= length med \/ symmetric n (vals D) -> separated n (length med) (vals D) g 0 ->
  Permutation order (seq 0 n) -> valid_oracle orc ->
  exists r r' : pam_result Lt, rand_fasterpam M order med maxiter = Ok r /\ par_fasterpam M orc order med maxiter = Ok r' /\
    (r_iter r < maxiter \/ n ^ length med < maxiter ->
       finds vL (vals D) n (length med) g r /\ finds vL (vals D) n (length med) g r').
Proof.
  intros hd hs hm hk hg hp hor.
  assert (ho : forall j, In j order -> j < n).
  { intros j hj. apply (Permutation_in _ hp) in hj. apply in_seq in hj. lia. }
  destruct (C12_rand_fasterpam (Lt := Lt) M n D order med maxiter hd hs hm hk hp)
    as (r & e & c1 & c2 & c3 & c4 & c5 & c6 & c7 & c8 & c9 & c10 & c11 & c12 & c13).
  destruct (C13_schedule_independent (Lt := Lt) M n D orc order med maxiter hd hs hm ho hor)
    as (q & r' & d1 & d2 & d3 & d4 & d5 & d6 & d7).
  rewrite e in d1. injection d1 as <-. exists r, r'. split; [exact e|]. split; [exact d2|]. intros hc.
  assert (hlt : r_iter r < maxiter) by (destruct hc; lia). specialize (c13 hlt).
  assert (h1 : 1 <= length med) by (destruct hs; lia). pose proof (diss_dissimilarity M n D hd) as hv.
  split; apply optimum_finds; rewrite <- ?d3, <- ?d4, <- ?d7; auto.
Qed.
Print Assumptions C78_fasterpam.

(** One pass over the objects is enough to find the groups, if not yet the best medoids. *)
Theorem C78_one_pass {Nt Lt : Type} `{HLL : LossLaws Nt Lt} (M : Mat Nt) n D g med maxiter order orc :
  diss_matrix M n D -> sizes n (length med) -> medoids n (length med) med -> separated n (length med) (vals D) g 0 ->
  Permutation order (seq 0 n) -> valid_oracle orc -> 1 <= maxiter ->
  exists r r' : pam_result Lt, rand_fasterpam M order med maxiter = Ok r /\ par_fasterpam M orc order med maxiter = Ok r' /\
    recovers n g (r_med r) (r_assi r) /\ recovers n g (r_med r') (r_assi r').
Proof.
  intros hd hs hm (d & s & hg & ha & hse) hp hor hmi.
  assert (ho : forall j, In j order -> j < n).
  { intros j hj. apply (Permutation_in _ hp) in hj. apply in_seq in hj. lia. }
  destruct (C40_fasterpam (Lt := Lt) M n D med maxiter order hd hs hm ho) as (_ & r & _ & e & _ & (a1 & a2 & a3 & a4) & _).
  destruct (C13_schedule_independent (Lt := Lt) M n D orc order med maxiter hd hs hm ho hor)
    as (q & r' & d1 & d2 & d3 & d4 & d5 & d6 & d7).
  rewrite e in d1. injection d1 as <-. exists r, r'. split; [exact e|]. split; [exact d2|].
  pose proof (diss_dissimilarity M n D hd) as hv. assert (hk : 1 <= length med) by (destruct hs; lia).
  assert (hs' : (inject_Z (Z.of_nat n) * d < s)%Q) by lra. pose proof a1 as (m1 & m2 & m3).
  assert (hc : covers n g (r_med r)).
  { destruct (Nat.eq_dec (length med) 1) as [h1|h1]; [apply (single_covers n (length med) (vals D) g d s); auto|].
    pose proof (rand_fasterpam_covers (Lt := Lt) hd hs hm ltac:(lia) hg ha hs' hp hmi) as h.
    apply oks_elim with (2 := e) in h. exact h. }
  assert (hr : recovers n g (r_med r) (r_assi r)) by (apply (covers_recovers n (length med) (vals D) g d s); auto; lia).
  split; [exact hr|]. rewrite <- d3, <- d4. exact hr.
Qed.
Print Assumptions C78_one_pass.

Theorem C78_pam_swap {Nt Lt : Type} `{HLL : LossLaws Nt Lt} (M : Mat Nt) n D g med maxiter :
  diss_matrix M n D -> sizes n (length med) -> medoids n (length med) med ->
  2 <= length med \/ symmetric n (vals D) -> separated n (length med) (vals D) g 0 ->
  exists r : pam_result Lt, fastpam1 M med maxiter = Ok r /\ pam_swap M med maxiter = Ok r /\
    (r_iter r < maxiter \/ n ^ length med < maxiter -> finds vL (vals D) n (length med) g r).
Proof.
  intros hd hs hm hk hg.
  destruct (C14_steepest_descent (Lt := Lt) M n D med maxiter hd hs hm hk)
    as (r & e & e' & c1 & c2 & c3 & c4 & c5 & c6 & c7 & c8 & c9 & c10 & c11 & c12 & c13 & _).
  exists r. split; [exact e|]. split; [exact e'|]. intros hc.
  assert (hlt : r_iter r < maxiter) by (destruct hc; lia). specialize (c13 hlt).
  apply optimum_finds; auto; [eapply diss_dissimilarity; eauto|destruct hs; lia].
Qed.
Print Assumptions C78_pam_swap.

(** BUILD alone finds the groups: it returns [k] medoids, one in each group.  (They need not be the best of their groups.) *)
Theorem C78_build {Nt Lt : Type} `{HLL : LossLaws Nt Lt} (M : Mat Nt) n D g k :
  diss_matrix M n D -> sizes n k -> separated n k (vals D) g 0 ->
  exists (loss : Lt) assi meds, pam_build M k = Ok (loss, assi, meds) /\
    medoids n k meds /\ recovers n g meds assi /\ (vL loss == tdev (vals D) n meds)%Q.
Proof.
  intros hd hs (d & s & hg & ha & hse).
  destruct (C16_pam_build (Lt := Lt) M n D k hd hs) as (l & a & ms & eb & c1 & c2 & c3 & c4 & c5 & c6 & c7 & c8 & c9).
  pose proof (diss_dissimilarity M n D hd) as hv. assert (hk : 1 <= k) by (destruct hs; lia).
  assert (hs' : (inject_Z (Z.of_nat n) * d < s)%Q) by lra.
  destruct (greedy_covers n k (vals D) g d s hv hg hk hs' ms 0 ha c3 hse ltac:(lra) c1) as [h1 h2].
  - destruct (Nat.eq_dec (length ms) k) as [e|e]; [left; exact e|right]. rewrite <- c5. apply c9. lia.
  - intros i y hi hy. specialize (c4 i y hi hy). lra.
  - exists l, a, ms. split; [exact eb|]. split; [split; auto|]. split; [|exact c5].
    apply (covers_recovers n k (vals D) g d s); auto. lia.
Qed.
Print Assumptions C78_build.

(** PAM: BUILD followed by the swap phase. *)
Theorem C78_pam {Nt Lt : Type} `{HLL : LossLaws Nt Lt} (M : Mat Nt) n D g k maxiter :
  diss_matrix M n D -> sizes n k -> 2 <= k \/ symmetric n (vals D) -> separated n k (vals D) g 0 ->
  exists r : pam_result Lt, pam M k maxiter = Ok r /\
    (r_iter r < maxiter \/ n ^ k < maxiter -> finds vL (vals D) n k g r).
Proof.
  intros hd hs hk hg.
  destruct (C78_build (Lt := Lt) M n D g k hd hs hg) as (l & a & ms & eb & hm & hr & hl).
  destruct (C17_pam_is_build_swap (Lt := Lt) M n D k maxiter hd hs)
    as (r & r' & l' & a' & ms' & f1 & f2 & f3 & g1 & g2 & g3 & g4 & g5 & g6).
  rewrite eb in f2. injection f2 as <- <- <-. pose proof (proj1 hm) as el.
  destruct (C78_pam_swap (Lt := Lt) M n D g ms maxiter hd) as (q & _ & e & h); rewrite ?el; auto.
  rewrite f3 in e. injection e as <-. exists r. split; [exact f1|]. rewrite el in h. intros hc. rewrite g3 in hc.
  destruct (h hc) as (h1 & h2 & h3 & h4). split; [rewrite g1; exact h1|]. split; [rewrite g1, g2; exact h2|].
  split; [rewrite g1, g5; exact h3|]. intros opt o1 o2. rewrite g5. apply h4; assumption.
Qed.
Print Assumptions C78_pam.

(** The alternating algorithm, if the initial medoids include one of every group. *)
Theorem C78_alternating {Nt Lt : Type} `{HLL : LossLaws Nt Lt} (M : Mat Nt) n D g med maxiter :
  diss_matrix M n D -> sizes n (length med) -> medoids n (length med) med -> symmetric n (vals D) ->
  separated n (length med) (vals D) g 0 -> covers n g med ->
  exists r : pam_result Lt, alternating M med maxiter = Ok r /\ recovers n g (r_med r) (r_assi r) /\
    (r_iter r < maxiter \/ n ^ length med < maxiter -> finds vL (vals D) n (length med) g r).
Proof.
  intros hd hs hm hsy (d & s & hg & ha & hse) hc.
  destruct (C18_alternating_consistent (Lt := Lt) M n D med maxiter hd hs hm) as (r & e & a1 & a2 & a3 & a4 & a5 & a6 & a7).
  destruct (C19_alternating_monotone (Lt := Lt) M n D med maxiter hd hs hm hsy) as (q & e' & b1 & b2 & b3).
  rewrite e in e'. injection e' as <-.
  destruct (C19_alternating_fixpoint (Lt := Lt) M n D med maxiter hd hs hm) as (q & e' & b4).
  rewrite e in e'. injection e' as <-.
  pose proof (diss_dissimilarity M n D hd) as hv. assert (hk : 1 <= length med) by (destruct hs; lia).
  assert (hs' : (inject_Z (Z.of_nat n) * d < s)%Q) by lra. pose proof a1 as (m1 & m2 & m3).
  assert (hc' : covers n g (r_med r)).
  { apply (small_covers n (length med) (vals D) g d s); auto; [intros c; rewrite c in m1; cbn in m1; lia|].
    pose proof (cover_tdev n (length med) (vals D) g d s hg hk med (proj2 (proj2 hm)) hc). lra. }
  assert (hrec : recovers n g (r_med r) (r_assi r)).
  { apply (covers_recovers n (length med) (vals D) g d s); auto. lia. }
  exists r. split; [exact e|]. split; [exact hrec|]. intros hi.
  split; [exact a1|]. split; [exact hrec|]. split; [exact a6|]. intros opt h1 h2. rewrite a6.
  apply (cluster_optimal n (length med) (vals D) g d s hv hg hk hs' (r_med r) (r_assi r)); auto.
  apply b4. destruct hi; lia.
Qed.
Print Assumptions C78_alternating.

(** Machine integers without overflow (C43), binary64 on a grid (C44): every run with an exact optimum. *)
Theorem C78_exact {Lt} (val : Lt -> Q) v n k g maxiter med (r : pam_result Lt) :
  dissimilarity n v -> 1 <= k -> separated n k v g 0 -> exact_optimum val v n k maxiter med r -> r_iter r < maxiter ->
  finds val v n k g r.
Proof.
  intros hv hk hg (h1 & h2 & h3 & h4 & h5 & _ & _ & _ & h9) hlt. apply optimum_finds; auto.
Qed.
Print Assumptions C78_exact.

(** ** Concrete inputs *)
Definition sep_b (n k : nat) (rows : list (list Z)) (g : nat -> nat) (d s : Z) : bool :=
  forallb (fun i => (g i <? k) && forallb (fun j => if g i =? g j then (entries rows i j <=? d)%Z else (s <=? entries rows i j)%Z) (seq 0 n)) (seq 0 n) &&
  forallb (fun c => existsb (fun i => g i =? c) (seq 0 n)) (seq 0 k) && (Z.of_nat n * d <? s)%Z.
Lemma sep_rows n k rows g d s : sep_b n k rows g d s = true -> metric n (vals (entries rows)) ->
  separated n k (vals (entries rows)) g 0.
Proof.
  intros h hm. unfold sep_b in h. apply andb_prop in h as [h h3]. apply andb_prop in h as [h1 h2].
  assert (hg : groups n k (vals (entries rows)) g (inject_Z d) (inject_Z s)).
  { assert (H : forall i, i < n -> g i < k /\ forall j, j < n ->
      (if g i =? g j then (entries rows i j <=? d)%Z else (s <=? entries rows i j)%Z) = true).
    { intros i hi. pose proof (forallb_seq _ h1 hi) as h4. cbv beta in h4. apply andb_prop in h4 as [h4 h5].
      split; [apply Nat.ltb_lt; exact h4|]. intros j hj. exact (forallb_seq _ h5 hj). }
    split; [intros i hi; apply H; exact hi|]. split.
    { intros c hc. pose proof (forallb_seq _ h2 hc) as h4. cbv beta in h4. apply existsb_exists in h4 as (i & hi & ei).
      apply in_seq in hi. apply Nat.eqb_eq in ei. exists i. split; [lia|exact ei]. }
    split; intros i j hi hj e; pose proof (proj2 (H i hi) j hj) as h4; unfold vals; simpl; rewrite <- Zle_Qle.
    - rewrite e, Nat.eqb_refl in h4. apply Z.leb_le. exact h4.
    - apply Nat.eqb_neq in e. rewrite e in h4. apply Z.leb_le. exact h4. }
  exists (inject_Z d), (inject_Z s). split; [exact hg|]. split; [eapply metric_alike; eauto|].
  apply Z.ltb_lt in h3. rewrite Zlt_Qlt, inject_Z_mult in h3. lra.
Qed.

(** six objects on a line: 0, 2, 3 | 40, 42 | 90 (in another order) *)
Definition line (xs : list Z) : list (list Z) := map (fun x => map (fun y => Z.abs (x - y)) xs) xs.
Definition rows_g : list (list Z) := line [40; 0; 90; 3; 42; 2]%Z.
Definition grp (i : nat) : nat := nth i [1; 0; 2; 0; 1; 0] 0.
Lemma g_diss : diss_matrix (mat_of_rows rows_g) 6 (entries rows_g).
Proof. apply rows_diss; [lia|reflexivity]. Qed.
Lemma g_metric : metric 6 (vals (entries rows_g)).
Proof. apply rows_metric; [lia|reflexivity..]. Qed.
Lemma g_sep : separated 6 3 (vals (entries rows_g)) grp 0.
Proof. apply sep_rows with (d := 3%Z) (s := 37%Z); [vm_compute; reflexivity|exact g_metric]. Qed.
Lemma k135 : medoids 6 3 [1; 3; 5].
Proof. apply meds_ok. reflexivity. Qed.

(** all the initial medoids belong to the first group *)
Definition C78_case := C78_fasterpam (Lt := Z) (mat_of_rows rows_g) 6 (entries rows_g) grp [1; 3; 5] 10 [3; 5; 0; 1; 4; 2] P_Pam.orc2
  g_diss s63 k135 (or_introl le23) g_sep perm6 orc2_ok.
Definition C78_one_pass_case := C78_one_pass (Lt := Z) (mat_of_rows rows_g) 6 (entries rows_g) grp [1; 3; 5] 1 [3; 5; 0; 1; 4; 2]
  P_Pam.orc2 g_diss s63 k135 g_sep perm6 orc2_ok (le_n 1).
(** the groups are found, the best medoids are not *)
Example C78_one_pass_value : exists r : pam_result Z, rand_fasterpam (mat_of_rows rows_g) [5; 1; 3; 2; 0; 4] [1; 3; 5] 1 = Ok r /\
  r_assi r = [0; 1; 2; 1; 0; 1] /\ r_loss r = 6%Z.
Proof. eexists. split; [vm_compute; reflexivity|]. split; reflexivity. Qed.
Definition C78_swap_case := C78_pam_swap (Lt := Z) (mat_of_rows rows_g) 6 (entries rows_g) grp [1; 3; 5] 10
  g_diss s63 k135 (or_introl le23) g_sep.
Definition C78_build_case := C78_build (Lt := Z) (mat_of_rows rows_g) 6 (entries rows_g) grp 3 g_diss s63 g_sep.
Definition C78_pam_case := C78_pam (Lt := Z) (mat_of_rows rows_g) 6 (entries rows_g) grp 3 10 g_diss s63 (or_introl le23) g_sep.
Lemma k123 : medoids 6 3 [1; 2; 4].
Proof. apply meds_ok. reflexivity. Qed.
Lemma g_covers : covers 6 grp [1; 2; 4].
Proof.
  intros i hi. do 6 (destruct i; [first [exists 1; split; [cbn; tauto|reflexivity]|exists 2; split; [cbn; tauto|reflexivity]
    |exists 4; split; [cbn; tauto|reflexivity]]|]). lia.
Qed.
Definition C78_alternating_case := C78_alternating (Lt := Z) (mat_of_rows rows_g) 6 (entries rows_g) grp [1; 2; 4] 10
  g_diss s63 k123 (proj1 (proj2 g_metric)) g_sep g_covers.
Example C78_value : exists r : pam_result Z, fasterpam (mat_of_rows rows_g) [1; 3; 5] 10 = Ok r /\ r_iter r < 10 /\
  r_loss r = 5%Z /\ In 5 (r_med r) /\ In 2 (r_med r).
Proof. eexists. split; [vm_compute; reflexivity|]. cbn. repeat split; try lia; tauto. Qed.

(** The alternating algorithm misses the groups from other initial medoids: two in the first group, and one for the other two. *)
Theorem C78_alternating_refuted : exists rows g med, sep_b 4 3 rows g 1 99 = true /\ metric 4 (vals (entries rows)) /\
  medoids 4 3 med /\ forall maxiter, 1 <= maxiter -> exists r : pam_result Z, alternating (mat_of_rows rows) med maxiter = Ok r /\
    r_iter r = 1 /\ ~ recovers 4 g (r_med r) (r_assi r) /\
    (50 * tdev (vals (entries rows)) 4 [0; 2; 3]%nat < inject_Z (r_loss r))%Q.
Proof.
  exists (line [0; 1; 1000; 1100]%Z), (fun i => nth i [0; 0; 1; 2] 0), [0; 1; 2]. split; [vm_compute; reflexivity|].
  split; [apply rows_metric; [lia|reflexivity..]|]. split; [apply meds_ok; reflexivity|].
  intros [|maxiter] hm; [lia|]. eexists. split; [vm_compute; reflexivity|]. cbn [r_iter r_med r_assi r_loss].
  split; [reflexivity|]. split; [|vm_compute; reflexivity].
  intros [h _]. specialize (h 0 1 ltac:(lia) ltac:(lia)). cbn in h. intuition lia.
Qed.
Print Assumptions C78_alternating_refuted.

(** Without [alike] the swap algorithms may miss the groups.  Three groups of three objects each; all the medoids are in the
    first group, and each of the other objects is close to one of them only, so that removing it costs more than is won. *)
Definition rows_far : list (list Z) :=
  [[0; 1; 1; 10; 90; 90; 10; 90; 90]; [1; 0; 1; 90; 10; 90; 90; 10; 90]; [1; 1; 0; 90; 90; 10; 90; 90; 10];
   [10; 90; 90; 0; 1; 1; 90; 90; 90]; [90; 10; 90; 1; 0; 1; 90; 90; 90]; [90; 90; 10; 1; 1; 0; 90; 90; 90];
   [10; 90; 90; 90; 90; 90; 0; 1; 1]; [90; 10; 90; 90; 90; 90; 1; 0; 1]; [90; 90; 10; 90; 90; 90; 1; 1; 0]]%Z.
Theorem C78_alike_refuted : exists rows g d s, rows_ok 9 rows = true /\ sym_b 9 rows = true /\ sep_b 9 3 rows g d s = true /\
  medoids 9 3 [0; 1; 2] /\
  forall maxiter, 1 <= maxiter -> exists r : pam_result Z, fasterpam (mat_of_rows rows) [0; 1; 2] maxiter = Ok r /\
    fastpam1 (mat_of_rows rows) [0; 1; 2] maxiter = Ok r /\ r_iter r = 1 /\ r_med r = [0; 1; 2] /\ ~ recovers 9 g (r_med r) (r_assi r).
Proof.
  exists rows_far, (fun i => nth i [0; 0; 0; 1; 1; 1; 2; 2; 2] 0), 1%Z, 10%Z.
  split; [reflexivity|]. split; [reflexivity|]. split; [vm_compute; reflexivity|]. split; [apply meds_ok; reflexivity|].
  intros [|maxiter] hm; [lia|]. eexists. split; [vm_compute; reflexivity|]. split; [vm_compute; reflexivity|].
  cbn [r_iter r_med r_assi]. split; [reflexivity|]. split; [reflexivity|].
  intros [_ h]. specialize (h 3 ltac:(lia)). vm_compute in h. discriminate.
Qed.
Print Assumptions C78_alike_refuted.
