(** P_Rich.v -- property C102: every partition can be found (the richness of Kleinberg).  For every partition of the objects into k
    non-empty groups there are dissimilarities, even a metric, for which the swap algorithms and PAM return it.
    So do the algorithms for the medoid silhouette, if they start with a medoid in every group, and PAMMEDSIL.
    Every theorem is followed by a concrete input which meets its hypotheses. *)
From Coq Require Import ZArith QArith Lqa Lia Permutation.
From Verif Require Import Base Num M_Mat M_Util M_Fasterpam M_Pam M_Alternating M_ParFasterpam M_Msc M_Pammedsil Inst Hoare Spec SpecFacts
  Laws PamShape ParFacts Approx Groups GroupMsc Ex P_Fasterpam P_Pam P_Restart P_Groups P_GroupsMsc.
Open Scope nat_scope.

(** 1 within the groups, [n] + 1 between them *)
Definition rich (n : nat) (g : nat -> nat) (i j : nat) : Z :=
  if i =? j then 0%Z else if g i =? g j then 1%Z else (Z.of_nat n + 1)%Z.
Definition rich_matrix (n : nat) (g : nat -> nat) : Mat Z := mkMat n (Ok true) (fun i j => Ok (rich n g i j)).

Ltac rich_cases := unfold rich;
  repeat match goal with |- context [?a =? ?b] => destruct (Nat.eqb_spec a b) end; subst; try congruence; try lia.

Lemma rich_diss n g : diss_matrix (rich_matrix n g) n (rich n g).
Proof.
  split; [split; [reflexivity|split; reflexivity]|]. split.
  - intros x hx. unfold rich. rewrite Nat.eqb_refl. reflexivity.
  - intros x y hx hy. split; [exact I|]. change 0%Q with (inject_Z 0). unfold vals. simpl. rewrite <- Zle_Qle. rich_cases.
Qed.

Lemma rich_metric n g : metric n (vals (rich n g)).
Proof.
  split; [exact (diss_dissimilarity _ n _ (rich_diss n g))|]. split.
  - intros i j hi hj. unfold vals. simpl. replace (rich n g i j) with (rich n g j i); [reflexivity|]. rich_cases.
  - intros i j l hi hj hl. unfold vals. simpl. rewrite <- inject_Z_plus, <- Zle_Qle. rich_cases.
Qed.

Lemma rich_separated n k g : (forall o, o < n -> g o < k) -> (forall c, c < k -> exists o, o < n /\ g o = c) ->
  separated n k (vals (rich n g)) g 0.
Proof.
  intros h1 h2. exists 1%Q, (inject_Z (Z.of_nat n + 1)). split; [split; [exact h1|split; [exact h2|split]]|split].
  - intros i j hi hj e. unfold vals. simpl. change 1%Q with (inject_Z 1). rewrite <- Zle_Qle. rich_cases.
  - intros i j hi hj e. unfold vals. simpl. rewrite <- Zle_Qle. rich_cases.
  - intros o i j ho hi hj e. unfold vals. simpl. change 1%Q with (inject_Z 1). rewrite <- inject_Z_plus, <- Zle_Qle. rich_cases.
  - rewrite inject_Z_plus. change (inject_Z 1) with 1%Q. lra.
Qed.

(** C102. *)
Theorem C102_every_partition n k (g : nat -> nat) : sizes n k ->
  (forall o, o < n -> g o < k) -> (forall c, c < k -> exists o, o < n /\ g o = c) ->
  exists (M : Mat Z) D, diss_matrix M n D /\ metric n (vals D) /\
    (forall i j, i < n -> j < n -> i <> j -> (0 < vals D i j)%Q) /\
    forall med order orc maxiter, medoids n k med -> Permutation order (seq 0 n) -> valid_oracle orc -> n ^ k < maxiter ->
      all_swap_runs (Lt := Z) M orc order med maxiter
        (fun m => exists r, m = Ok r /\ medoids n k (r_med r) /\ recovers n g (r_med r) (r_assi r)) /\
      exists r : pam_result Z, pam M k maxiter = Ok r /\ medoids n k (r_med r) /\ recovers n g (r_med r) (r_assi r).
Proof.
  intros hs h1 h2. pose proof (rich_diss n g) as hd. pose proof (rich_metric n g) as hme. pose proof (rich_separated n k g h1 h2) as hse.
  exists (rich_matrix n g), (rich n g). split; [exact hd|]. split; [exact hme|]. split.
  { intros i j hi hj hne. unfold vals. simpl. change 0%Q with (inject_Z 0). rewrite <- Zlt_Qlt. rich_cases. }
  intros med order orc maxiter hm hp hor hmi. pose proof (proj1 hm) as hl. destruct hme as (_ & hsy & _).
  split.
  - rewrite <- hl in hs, hm, hse, hmi |- *.
    destruct (C78_fasterpam (Lt := Z) (rich_matrix n g) n (rich n g) g med maxiter order orc hd hs hm (or_intror hsy) hse hp hor)
      as (r2 & r3 & e2 & e3 & h). destruct (h (or_intror hmi)) as [f2 f3].
    destruct (C78_fasterpam (Lt := Z) (rich_matrix n g) n (rich n g) g med maxiter (seq 0 n) orc hd hs hm (or_intror hsy) hse
      (Permutation_refl _) hor) as (r1 & r0 & e1 & _ & h'). destruct (h' (or_intror hmi)) as [f1 _].
    destruct (C78_pam_swap (Lt := Z) (rich_matrix n g) n (rich n g) g med maxiter hd hs hm (or_intror hsy) hse)
      as (r4 & e4 & e5 & h''). pose proof (h'' (or_intror hmi)) as f4.
    unfold all_swap_runs. split; [|split; [|split; [|split]]].
    + exists r1. split; [exact e1|]. split; apply f1.
    + exists r2. split; [exact e2|]. split; apply f2.
    + exists r3. split; [exact e3|]. split; apply f3.
    + exists r4. split; [exact e4|]. split; apply f4.
    + exists r4. split; [exact e5|]. split; apply f4.
  - destruct (C78_pam (Lt := Z) (rich_matrix n g) n (rich n g) g k maxiter hd hs (or_intror hsy) hse) as (r & e & h).
    exists r. split; [exact e|]. split; apply (h (or_intror hmi)).
Qed.
Print Assumptions C102_every_partition.

(** the partition of seven objects into {0, 3, 6}, {1, 4} and {2, 5} *)
Definition g_mod3 (o : nat) : nat := o mod 3.
Lemma g_mod3_onto c : c < 3 -> exists o, o < 7 /\ g_mod3 o = c.
Proof. intros hc. exists c. split; [lia|]. apply Nat.mod_small. exact hc. Qed.
Definition C102_case := C102_every_partition 7 3 g_mod3 ltac:(apply sizes_ok; reflexivity)
  (fun o _ => Nat.mod_upper_bound o 3 (Nat.neq_succ_0 2)) g_mod3_onto.
Example C102_value : fasterpam (Lt := Z) (rich_matrix 7 g_mod3) [0; 3; 6] 400 = Ok (mkPR 4%Z [2; 0; 1; 2; 0; 1; 2] 2 2 [1; 2; 6]).
Proof. vm_compute. reflexivity. Qed.

(** The same metric for the medoid silhouette: from initial medoids with one in each group (other ones may get stuck,
    C87_stuck_refuted), and for PAMMEDSIL if object 0 is not alone in its group.  The value is at least 1 - 1 / (n + 1). *)
Lemma rich_even n k g : (forall o, o < n -> g o < k) -> (forall c, c < k -> exists o, o < n /\ g o = c) ->
  even_groups n k (vals (rich n g)) g (1 / inject_Z (Z.of_nat n + 1)) 0.
Proof.
  intros h1 h2.
  assert (hp : (0 < inject_Z (Z.of_nat n + 1))%Q) by (change 0%Q with (inject_Z 0); rewrite <- Zlt_Qlt; lia).
  exists 1%Q, (inject_Z (Z.of_nat n + 1)), (inject_Z (Z.of_nat n + 1) / inject_Z (Z.of_nat n + 1))%Q.
  split; [split; [exact h1|split; [exact h2|split]]|split; [|split; [|split; [|split]]]].
  - intros i j hi hj e. unfold vals. simpl. change 1%Q with (inject_Z 1). rewrite <- Zle_Qle. rich_cases.
  - intros i j hi hj e. unfold vals. simpl. rewrite <- Zle_Qle. rich_cases.
  - intros o i j ho hi hj e. unfold vals. simpl. change 1%Q with (inject_Z 1). rewrite <- inject_Z_plus, <- Zle_Qle. rich_cases.
  - exact hp.
  - reflexivity.
  - right. exists (inject_Z (Z.of_nat n + 1)). split; [|reflexivity].
    intros i j hi hj. unfold vals. simpl. rewrite <- Zle_Qle. rich_cases.
  - rewrite Qplus_0_r. apply Qlt_shift_div_l; [exact hp|].
    assert (e : (inject_Z (Z.of_nat n) * (1 / inject_Z (Z.of_nat n + 1)) * inject_Z (Z.of_nat n + 1) == inject_Z (Z.of_nat n))%Q)
      by (field; lra).
    rewrite e. rewrite <- Zlt_Qlt. lia.
Qed.

Theorem C102_msc n k (g : nat -> nat) : sizes n k -> 2 <= k ->
  (forall o, o < n -> g o < k) -> (forall c, c < k -> exists o, o < n /\ g o = c) ->
  exists (M : Mat Z) D, diss_matrix M n D /\ metric n (vals D) /\
    (forall i j, i < n -> j < n -> i <> j -> (0 < vals D i j)%Q) /\
    (forall med maxiter, medoids n k med -> covers n g med ->
      all_msc_runs (Lt := Q) M med maxiter (fun m => exists r, m = Ok r /\ recovers n g (r_med r) (r_assi r) /\
        (1 - 1 / inject_Z (Z.of_nat n + 1) <= r_loss r)%Q)) /\
    (forall maxiter, not_alone n g -> exists r : pam_result Q, pammedsil M k maxiter = Ok r /\ recovers n g (r_med r) (r_assi r) /\
        (1 - 1 / inject_Z (Z.of_nat n + 1) <= r_loss r)%Q).
Proof.
  intros hs hk h1 h2. pose proof (rich_diss n g) as hd. pose proof (rich_metric n g) as hme. pose proof (rich_even n k g h1 h2) as hev.
  exists (rich_matrix n g), (rich n g). split; [exact hd|]. split; [exact hme|]. split; [|split].
  - intros i j hi hj hne. unfold vals. simpl. change 0%Q with (inject_Z 0). rewrite <- Zlt_Qlt. rich_cases.
  - intros med maxiter hm hc. pose proof (proj1 hm) as hl. rewrite <- hl in hs, hm, hev, hk.
    pose proof (C87_kept (Lt := Q) (rich_matrix n g) n (rich n g) g _ med maxiter hd hs hm hk hev hc) as h.
    assert (G : forall m, (exists r : pam_result Q, m = Ok r /\ finds_groups vL n g (1 / inject_Z (Z.of_nat n + 1)) r) ->
      exists r, m = Ok r /\ recovers n g (r_med r) (r_assi r) /\ (1 - 1 / inject_Z (Z.of_nat n + 1) <= r_loss r)%Q).
    { intros m (r & e & f1 & f2 & _). exists r. split; [exact e|]. split; [exact f1|exact f2]. }
    unfold all_msc_runs. split; [|split]; apply G, h; simpl; auto.
  - intros maxiter hna.
    destruct (C87_pammedsil (Lt := Q) (rich_matrix n g) n (rich n g) g _ k maxiter hd hs hk hev) as (r & e & h).
    destruct (h (or_introl hna)) as (f1 & f2 & _). exists r. split; [exact e|]. split; [exact f1|exact f2].
Qed.
Print Assumptions C102_msc.
Definition C102_msc_case := C102_msc 7 3 g_mod3 ltac:(apply sizes_ok; reflexivity) (le_S _ _ (le_n 2))
  (fun o _ => Nat.mod_upper_bound o 3 (Nat.neq_succ_0 2)) g_mod3_onto.
Example C102_not_alone : not_alone 7 g_mod3. Proof. exists 3. split; [lia|reflexivity]. Qed.
Example C102_covers : covers 7 g_mod3 [0; 1; 2].
Proof.
  intros i hi. exists (i mod 3). pose proof (Nat.mod_upper_bound i 3 (Nat.neq_succ_0 2)) as h.
  split; [change [0; 1; 2] with (seq 0 3); apply in_seq; lia|]. unfold g_mod3. apply Nat.mod_mod. discriminate.
Qed.
