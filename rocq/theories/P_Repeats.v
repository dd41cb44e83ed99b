(** P_Repeats.v -- property C91: initial medoids which contain an object more than once.  The code does not check for this.
    Every theorem is followed by a concrete input which meets its hypotheses. *)
From Coq Require Import ZArith QArith Lqa Lia Permutation.
From Verif Require Import Base Num M_Mat M_Util M_Fasterpam M_Pam Inst Hoare Spec SpecFacts Laws PamShape PamExact FpMain LocalSearch Reference Repeats
  Ex P_Fasterpam P_Pam.
Open Scope nat_scope.

(** [k] objects, not necessarily different *)
Definition objects (n k : nat) (med : list nat) : Prop := length med = k /\ forall m, In m med -> m < n.

(** The result is a clustering with its loss, no worse than [med], strictly better if anything was swapped; and if the search stopped
    by itself, no swap improves it and its medoids are different objects, unless its loss is zero. *)
Definition sound_search {Lt} (vl : Lt -> Q) (v : diss) (n : nat) (med : list nat) (maxiter : nat) (p : pam_result Lt) : Prop :=
  objects n (length med) (r_med p) /\ length (r_assi p) = n /\ (forall o, o < n -> nearest v o (r_med p) (nth o (r_assi p) 0)) /\
  (vl (r_loss p) == tdev v n (r_med p))%Q /\ (vl (r_loss p) == assigned_cost v n (r_med p) (r_assi p))%Q /\
  (tdev v n (r_med p) <= tdev v n med)%Q /\ (0 < r_swaps p -> (tdev v n (r_med p) < tdev v n med)%Q) /\ (r_swaps p = 0 -> r_med p = med) /\
  r_iter p <= maxiter /\ r_iter p <= S (r_swaps p) /\ r_swaps p < n ^ length med /\
  (r_iter p < maxiter -> swap_optimal v n (r_med p) /\ (NoDup (r_med p) \/ (vl (r_loss p) == 0)%Q)).

(** a swap optimum with a repeated medoid has no deviation at all *)
Lemma repeats_zero v n med : dissimilarity n v -> (forall m, In m med -> m < n) -> swap_optimal v n med ->
  NoDup med \/ (tdev v n med == 0)%Q.
Proof.
  intros hv hin hopt. destruct (Qlt_le_dec 0 (tdev v n med)) as [hp|hz].
  - left. apply (NoDup_nth med 0). intros i j hi hj e. destruct (Nat.eq_dec i j) as [|hne]; [assumption|exfalso].
    assert (hmed : med <> []) by (intros ->; simpl in hi; lia).
    assert (hall : forall y, y < n -> (mindist v y med == 0)%Q).
    { intros y hy. pose proof (hopt i y hi hy) as h1. pose proof (@tdev_snoc_le v n med y hv hy hmed) as h2.
      assert (h3 : (tdev v n (swap med i y) <= tdev v n (med ++ [y]))%Q).
      { apply tdev_incl; [destruct med; discriminate|]. intros x hx. rewrite swap_set_nth by exact hi.
        apply in_app_or in hx as [hx|[<-|[]]].
        - apply nth_In_iff in hx as (c & hc & ec). destruct (Nat.eq_dec c i) as [->|hci].
          + apply nth_In_iff. exists j. rewrite length_set_nth. split; [exact hj|]. rewrite nth_set_nth_neq by auto. congruence.
          + apply nth_In_iff. exists c. rewrite length_set_nth. split; [exact hc|]. rewrite nth_set_nth_neq by auto. exact ec.
        - apply nth_In_iff. exists i. rewrite length_set_nth. split; [exact hi|]. apply nth_set_nth_eq. exact hi. }
      pose proof (@mindist_nonneg v n y med hv hy hin). lra. }
    assert (h0 : (tdev v n med == 0)%Q).
    { unfold tdev. rewrite <- (sumQ_zero (seq 0 n)). apply sumQ_ext. intros o ho. apply in_seq in ho. apply hall. lia. }
    lra.
  - right. pose proof (@tdev_nonneg v n med hv hin). lra.
Qed.

Lemma sound_of_run {Nt Lt : Type} `{HLL : LossLaws Nt Lt} (M : Mat Nt) n D order med maxiter (p : pam_result Lt) : diss_matrix M n D ->
  run_r n D order med maxiter p -> Permutation order (seq 0 n) ->
  r_swaps p + better (tdev (vals D) n) n (length med) (r_med p) <= better (tdev (vals D) n) n (length med) med ->
  inr n med -> sound_search vL (vals D) n med maxiter p.
Proof.
  intros hd h hp hb hin. pose proof (vals_dissimilarity hd) as hv. pose proof h as [q1 q2 q3 q4 q5 q6 q7 q8 q9 q10 q11].
  assert (hopt : r_iter p < maxiter -> swap_optimal (vals D) n (r_med p)).
  { intros hlt b j hbl hj. apply q11; [exact hlt| |congruence]. apply Permutation_in with (1 := Permutation_sym hp). apply in_seq. lia. }
  unfold sound_search. split; [split; assumption|]. split; [exact q3|]. split; [exact q4|]. split; [exact q5|].
  split; [rewrite (nearest_cost (r_assi p) q4); exact q5|]. split; [exact q6|]. split; [exact q7|]. split; [exact q8|]. split; [exact q9|].
  split; [exact q10|]. split.
  - pose proof (better_bound (tdev (vals D) n) med eq_refl hin). lia.
  - intros hlt. split; [auto|]. rewrite q5. apply repeats_zero; auto.
Qed.

(** C91, FasterPAM and its randomised variant *)
Theorem C91_fasterpam {Nt Lt : Type} `{HLL : LossLaws Nt Lt} (M : Mat Nt) n D med maxiter order :
  diss_matrix M n D -> sizes n (length med) -> objects n (length med) med -> 2 <= length med -> Permutation order (seq 0 n) ->
  exists r p : pam_result Lt, fasterpam M med maxiter = Ok r /\ rand_fasterpam M order med maxiter = Ok p /\
    sound_search vL (vals D) n med maxiter r /\ sound_search vL (vals D) n med maxiter p.
Proof.
  intros hd hs (_ & hin) hk hp.
  assert (G : forall o, Permutation o (seq 0 n) -> exists r : pam_result Lt, fasterpam_order M o med maxiter = Ok r /\
            sound_search vL (vals D) n med maxiter r).
  { intros o ho. assert (hnd : NoDup o) by (apply (Permutation_NoDup (Permutation_sym ho)), seq_NoDup).
    assert (hlt : forall j, In j o -> j < n) by (intros j hj; apply (Permutation_in j ho) in hj; apply in_seq in hj; lia).
    pose proof (fasterpam_repeats (Lt := Lt) hd maxiter hs hin hk hnd hlt (@measure_r_better _ _ _ n D (length med))) as h.
    apply oks_inv in h as (r & e & h1 & _ & h2). exists r. split; [exact e|]. apply (sound_of_run M n D o); assumption. }
  destruct (G (seq 0 n) (Permutation_refl _)) as (r & e1 & h1). destruct (G order hp) as (p & e2 & h2).
  exists r, p. unfold fasterpam. rewrite (len_n (proj1 hd)). auto.
Qed.
Print Assumptions C91_fasterpam.

Lemma o6 : objects 6 3 [0; 3; 0]. Proof. split; [reflexivity|]. intros m [<-|[<-|[<-|[]]]]; lia. Qed.
Lemma le2_3 : 2 <= 3. Proof. lia. Qed.
Definition C91_fasterpam_case := C91_fasterpam (Lt := Z) m6 6 d6 [0; 3; 0] 10 (rev (seq 0 6)) m6_diss s63 o6 le2_3
  (Permutation_sym (Permutation_rev (seq 0 6))).
Example C91_fasterpam_value : match fasterpam (Lt := Z) m6 [0; 3; 0] 10 with Ok r => r_swaps r = 3 /\ NoDup (r_med r) | _ => False end.
Proof. vm_compute. split; [reflexivity|]. repeat constructor; simpl; intuition discriminate. Qed.

(** C91, FastPAM1 and PAM: moreover they agree with each other *)
Theorem C91_fastpam1_pam {Nt Lt : Type} `{HLL : LossLaws Nt Lt} (M : Mat Nt) n D med maxiter :
  diss_matrix M n D -> sizes n (length med) -> objects n (length med) med -> 2 <= length med ->
  exists r : pam_result Lt, fastpam1 M med maxiter = Ok r /\ pam_swap M med maxiter = Ok r /\
    sound_search vL (vals D) n med maxiter r.
Proof.
  intros hd hs (_ & hin) hk. destruct (fastpam1_pam_repeats (Lt := Lt) hd maxiter hs hin hk) as (r & e1 & e2).
  pose proof (fastpam1_repeats (Lt := Lt) hd maxiter hs hin hk (@measure_r_better _ _ _ n D (length med))) as h.
  apply oks_elim with (2 := e1) in h. destruct h as [[h1 h2 _] h3].
  exists r. split; [exact e1|]. split; [exact e2|]. apply (sound_of_run M n D (seq 0 n)); auto.
Qed.
Print Assumptions C91_fastpam1_pam.
Definition C91_fastpam1_case := C91_fastpam1_pam (Lt := Z) m6 6 d6 [0; 3; 0] 10 m6_diss s63 o6 le2_3.

(** C91.  They make the moves of the plain searches of C52 and C53. *)
Theorem C91_plain_searches {Nt Lt : Type} `{HLL : LossLaws Nt Lt} (M : Mat Nt) n D med maxiter :
  diss_matrix M n D -> sizes n (length med) -> objects n (length med) med -> 2 <= length med ->
  exists r p : pam_result Lt, fasterpam M med maxiter = Ok r /\ fastpam1 M med maxiter = Ok p /\
    (r_med r, r_swaps r, r_iter r) = eager_swaps (dev_better (vals D) n) (seq 0 n) med maxiter /\
    (r_med p, r_swaps p, r_iter p) = best_swaps (dev_better (vals D) n) n med maxiter.
Proof.
  intros hd hs (_ & hin) hk.
  assert (hlt : forall j, In j (seq 0 n) -> j < n) by (intros j hj; apply in_seq in hj; lia).
  pose proof (fasterpam_repeats (Lt := Lt) hd maxiter hs hin hk (seq_NoDup n 0) hlt (@measure_r_better _ _ _ n D (length med))) as h.
  apply oks_inv in h as (r & e & _ & h1 & _).
  pose proof (fastpam1_repeats (Lt := Lt) hd maxiter hs hin hk (@measure_r_better _ _ _ n D (length med))) as h.
  apply oks_inv in h as (p & e' & [_ _ h2] & _).
  exists r, p. unfold fasterpam. rewrite (len_n (proj1 hd)). auto.
Qed.
Print Assumptions C91_plain_searches.
Definition C91_plain_case := C91_plain_searches (Lt := Z) m6 6 d6 [0; 3; 0] 10 m6_diss s63 o6 le2_3.

(** With loss zero repeated medoids stay, and one of their clusters is empty. *)
Theorem C91_zero_refuted : exists (M : Mat Z) D r, diss_matrix M 3 D /\ objects 3 3 [0; 2; 2] /\ fasterpam (Lt := Z) M [0; 2; 2] 10 = Ok r /\
  r_iter r < 10 /\ ~ NoDup (r_med r) /\ ~ In 1 (r_assi r).
Proof.
  exists (mat_of_rows [[0; 0; 5]; [0; 0; 5]; [5; 5; 0]]%Z), (entries [[0; 0; 5]; [0; 0; 5]; [5; 5; 0]]%Z).
  eexists. split; [apply rows_diss; [lia|reflexivity]|]. split; [split; [reflexivity|intros m [<-|[<-|[<-|[]]]]; lia]|].
  split; [vm_compute; reflexivity|]. cbn [r_iter r_med r_assi]. split; [lia|]. split.
  - intros h. inversion h as [|x l h1 h2]; subst. inversion h2 as [|x' l' h3 h4]; subst. apply h3. left. reflexivity.
  - intros [c|[c|[c|[]]]]; discriminate.
Qed.
Print Assumptions C91_zero_refuted.
