(** P_Perturb.v -- property C75: dissimilarities measured with an error of at most [d] each.  What is computed from the
    measured matrix is nearly as good for the true one; in particular the matrix need not be a metric, or symmetric, but
    only close to a metric.  Every theorem is followed by a concrete input which meets its hypotheses. *)
From Coq Require Import ZArith QArith Lqa Lia Permutation.
From Verif Require Import Base Num M_Mat M_Util M_Fasterpam M_Pam Inst Hoare Spec SpecFacts Laws Approx FloatQuality Perturb Ex
  P_Fasterpam P_Pam P_Approx.
Open Scope nat_scope.

(** [n * d], the largest change of a total deviation *)
Definition drift (n : nat) (d : Q) : Q := (inject_Z (Z.of_nat n) * d)%Q.

(** the result of a run on [v], seen from the true dissimilarity [w]: the loss is off by at most [n * d], no swap lowers
    the true total deviation by more than [2 * n * d], and on metric data it is within a factor of five of the optimum up
    to [2 * k * n * d] *)
Definition good_for {Lt} (val : Lt -> Q) (w : diss) (n k : nat) (d : Q) (r : pam_result Lt) : Prop :=
  (val (r_loss r) <= tdev w n (r_med r) + drift n d)%Q /\ (tdev w n (r_med r) <= val (r_loss r) + drift n d)%Q /\
  nearly_optimal w n (r_med r) (2 * drift n d) /\
  (metric n w -> forall opt, 1 <= length opt <= k -> (forall m, In m opt -> m < n) ->
     (tdev w n (r_med r) <= 5 * tdev w n opt + 2 * inject_Z (Z.of_nat k) * drift n d)%Q).

Lemma optimum_good_for {Lt} (val : Lt -> Q) v w n k d (r : pam_result Lt) : entries_close n v w d -> 1 <= k -> medoids n k (r_med r) ->
  (val (r_loss r) == tdev v n (r_med r))%Q -> swap_optimal v n (r_med r) -> good_for val w n k d r.
Proof.
  intros hc hk (hl & _ & hin) hv ho. assert (hne : r_med r <> []) by (intros e; rewrite e in hl; cbn in hl; lia).
  pose proof (tdev_close hc hne hin) as h1. pose proof (tdev_close (entries_close_sym hc) hne hin) as h2.
  assert (hno : nearly_optimal w n (r_med r) (2 * drift n d)).
  { apply nearly_le with (0 + 2 * (inject_Z (Z.of_nat n) * d))%Q; [unfold drift; lra|]. apply (nearly_optimal_close hc hne hin).
    intros b j hb hj. pose proof (ho b j hb hj). lra. }
  split; [rewrite hv; exact h1|]. split; [rewrite hv; exact h2|]. split; [exact hno|]. intros hm opt hlo hio.
  pose proof (@five_times_slack w n (r_med r) opt _ hm hin hio ltac:(rewrite hl; exact hlo) hno) as h. rewrite hl in h.
  set (K := inject_Z (Z.of_nat k)) in *. set (x := drift n d) in *. clearbody K x. lra.
Qed.

(** C75.  Converged runs of fasterpam, for every order of the candidates, ... *)
Theorem C75_fasterpam {Nt Lt : Type} `{HLL : LossLaws Nt Lt} (M : Mat Nt) n D w d med maxiter order :
  diss_matrix M n D -> sizes n (length med) -> medoids n (length med) med -> 2 <= length med \/ symmetric n (vals D) ->
  entries_close n (vals D) w d -> Permutation order (seq 0 n) ->
  exists r : pam_result Lt, rand_fasterpam M order med maxiter = Ok r /\
    (r_iter r < maxiter \/ n ^ length med < maxiter -> good_for vL w n (length med) d r).
Proof.
  intros hd hs hm hk hc hp.
  destruct (C12_rand_fasterpam (Lt := Lt) M n D order med maxiter hd hs hm hk hp)
    as (r & e & c1 & c2 & c3 & c4 & c5 & c6 & c7 & c8 & c9 & c10 & c11 & c12 & c13).
  exists r. split; [exact e|]. intros hi. apply (optimum_good_for vL (vals D)); auto; [destruct hs; lia|]. apply c13. destruct hi; lia.
Qed.
Print Assumptions C75_fasterpam.

(** ... of fastpam1 and the swap phase of PAM ... *)
Theorem C75_pam_swap {Nt Lt : Type} `{HLL : LossLaws Nt Lt} (M : Mat Nt) n D w d med maxiter :
  diss_matrix M n D -> sizes n (length med) -> medoids n (length med) med -> 2 <= length med \/ symmetric n (vals D) ->
  entries_close n (vals D) w d ->
  exists r : pam_result Lt, fastpam1 M med maxiter = Ok r /\ pam_swap M med maxiter = Ok r /\
    (r_iter r < maxiter \/ n ^ length med < maxiter -> good_for vL w n (length med) d r).
Proof.
  intros hd hs hm hk hc.
  destruct (C14_steepest_descent (Lt := Lt) M n D med maxiter hd hs hm hk)
    as (r & e & e' & c1 & c2 & c3 & c4 & c5 & c6 & c7 & c8 & c9 & c10 & c11 & c12 & c13 & _).
  exists r. split; [exact e|]. split; [exact e'|]. intros hi. apply (optimum_good_for vL (vals D)); auto; [destruct hs; lia|].
  apply c13. destruct hi; lia.
Qed.
Print Assumptions C75_pam_swap.

(** ... and the same for [five_up_to] with rounding errors [e] in addition (as in C61 and C74) *)
Theorem C75_rounding v w n k d e med : metric n w -> entries_close n v w d -> medoids n k med -> nearly_optimal v n med e ->
  forall opt, 1 <= length opt <= k -> (forall m, In m opt -> m < n) ->
    (tdev w n med <= 5 * tdev w n opt + inject_Z (Z.of_nat k) * (2 * drift n d + e))%Q /\
    (tdev v n med <= 5 * tdev v n opt + (6 + 2 * inject_Z (Z.of_nat k)) * drift n d + inject_Z (Z.of_nat k) * e)%Q.
Proof.
  intros hm hc (hl & _ & hin) ho opt hlo hio. assert (hne : med <> []) by (intros ->; cbn in *; lia).
  rewrite <- hl in hlo. split.
  - pose proof (@five_times_slack w n med opt _ hm hin hio hlo (nearly_optimal_close hc hne hin ho)) as h. rewrite hl in h.
    unfold drift. set (K := inject_Z (Z.of_nat k)) in *. set (x := (inject_Z (Z.of_nat n) * d)%Q) in *. clearbody K x.
    apply Qle_trans with (1 := h). lra.
  - pose proof (@five_close n v w d e med opt hm hc hin hio hlo ho) as h. rewrite hl in h. exact h.
Qed.
Print Assumptions C75_rounding.

(** Six objects on a line, and a matrix in which every distance is off by at most 1; it is not symmetric, and violates the
    triangle inequality. *)
Definition line6 : diss := fun x y => inject_Z (Z.abs (nth x [0; 3; 4; 20; 22; 29] 0 - nth y [0; 3; 4; 20; 22; 29] 0))%Z.
Definition rows_noisy : list (list Z) :=
  [[0; 3; 5; 20; 22; 28]; [2; 0; 0; 17; 20; 26]; [4; 2; 0; 15; 18; 26]; [21; 16; 16; 0; 1; 9]; [21; 19; 19; 3; 0; 7]; [30; 26; 24; 9; 8; 0]]%Z.
Lemma noisy_diss : diss_matrix (mat_of_rows rows_noisy) 6 (entries rows_noisy).
Proof. apply rows_diss; [lia|reflexivity]. Qed.
Lemma noisy_close : entries_close 6 (vals (entries rows_noisy)) line6 1.
Proof.
  intros x y hx hy. do 6 (destruct x; [do 6 (destruct y; [split; vm_compute; discriminate|]); lia|]). lia.
Qed.
Lemma noisy_not_metric : ~ metric 6 (vals (entries rows_noisy)).
Proof. intros (_ & h & _). specialize (h 0 2 ltac:(lia) ltac:(lia)). vm_compute in h. discriminate h. Qed.
Lemma line6_metric : metric 6 line6.
Proof.
  split; [split|split].
  - intros x hx. unfold line6. rewrite Z.sub_diag. reflexivity.
  - intros x y _ _. unfold line6. change 0%Q with (inject_Z 0). rewrite <- Zle_Qle. apply Z.abs_nonneg.
  - intros x y _ _. unfold line6. rewrite <- Z.abs_opp, Z.opp_sub_distr, Z.add_comm. reflexivity.
  - intros x y z _ _ _. unfold line6. rewrite <- inject_Z_plus, <- Zle_Qle. lia.
Qed.
Definition C75_case := C75_fasterpam (Lt := Z) _ 6 _ line6 1 [0; 1] 50 [3; 5; 0; 1; 4; 2] noisy_diss s62 k62 (or_introl (le_n 2)) noisy_close.
Definition C75_case_pam := C75_pam_swap (Lt := Z) _ 6 _ line6 1 [0; 1] 50 noisy_diss s62 k62 (or_introl (le_n 2)) noisy_close.
Example C75_value : exists r : pam_result Z, fasterpam (mat_of_rows rows_noisy) [0; 1] 50 = Ok r /\ r_iter r < 50 /\ good_for inject_Z line6 6 2 1 r.
Proof.
  destruct (C75_fasterpam (Lt := Z) _ 6 _ line6 1 [0; 1] 50 (seq 0 6) noisy_diss s62 k62 (or_introl (le_n 2)) noisy_close (Permutation_refl _))
    as (r & e & h). exists r. split; [exact e|]. pose proof e as e'. vm_compute in e'. injection e' as e'. rewrite <- e' in h |- *.
  cbn [r_iter] in h |- *. split; [lia|]. apply h. left. lia.
Qed.

(** The optimum for the measured matrix need not be an optimum for the true one. *)
Theorem C75_exact_refuted : exists (M : Mat Z) D w (r : pam_result Z), diss_matrix M 3 D /\ metric 3 w /\ entries_close 3 (vals D) w 1 /\
  fasterpam M [0; 1] 10 = Ok r /\ r_iter r < 10 /\ ~ swap_optimal w 3 (r_med r).
Proof.
  set (rows := [[0; 2; 2]; [2; 0; 2]; [2; 2; 0]]%Z). set (rows_w := [[0; 1; 2]; [1; 0; 2]; [2; 2; 0]]%Z).
  exists (mat_of_rows rows), (entries rows), (vals (entries rows_w)). eexists.
  split; [apply rows_diss; [lia|reflexivity]|]. split.
  { split; [split|split].
    - intros x hx. do 3 (destruct x; [reflexivity|]). lia.
    - intros x y hx hy. do 3 (destruct x; [do 3 (destruct y; [vm_compute; discriminate|]); lia|]). lia.
    - intros x y hx hy. do 3 (destruct x; [do 3 (destruct y; [reflexivity|]); lia|]). lia.
    - intros x y z hx hy hz.
      do 3 (destruct x; [do 3 (destruct y; [do 3 (destruct z; [vm_compute; discriminate|]); lia|]); lia|]). lia. }
  split; [intros x y hx hy; do 3 (destruct x; [do 3 (destruct y; [split; vm_compute; discriminate|]); lia|]); lia|].
  split; [vm_compute; reflexivity|]. split; [vm_compute; lia|]. intros h. specialize (h 1 2 ltac:(cbn; lia) ltac:(lia)). vm_compute in h.
  apply h. reflexivity.
Qed.
Print Assumptions C75_exact_refuted.
