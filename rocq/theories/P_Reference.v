(** P_Reference.v -- properties C52 to C58: the algorithms against the plain searches of Reference.v,
    and what follows for scaled, relabelled and interrupted runs.
    Concrete inputs which meet the hypotheses stand below the theorems. *)
From Coq Require Import ZArith QArith Lqa Lia Permutation.
From Verif Require Import Base Num M_Mat M_Util M_Fasterpam M_Pam M_Alternating M_ParFasterpam M_Silhouette M_Msc
  M_Pammedsil M_Pamsil Inst Hoare Spec SpecFacts Laws PamShape PamExact Reference LocalSearch FpFacts ChooseFacts PamFacts
  BuildFacts AltFacts ParFacts FpMain PamMain SortFacts SilFacts MscShape MscExact MscFacts MscK2 MscMain BuildMsc
  PamsilFacts RefFacts Ex P_Fasterpam P_Pam P_Msc.
Open Scope nat_scope.

(** the run returns the medoids, the number of swaps and the number of iterations [x] *)
Definition finds {Lt : Type} (x : list nat * nat * nat) (m : res (pam_result Lt)) : Prop :=
  exists r, m = Ok r /\ (r_med r, r_swaps r, r_iter r) = x.

(** C52.  fasterpam, rand_fasterpam and par_fasterpam are first-improvement local search: the tables
    of nearest and second nearest medoids, the removal losses, the position of the last swap and the
    schedule of the parallel searches have no influence on the result. *)
Theorem C52_fasterpam_is_eager_search {Nt Lt : Type} `{HLL : LossLaws Nt Lt} (M : Mat Nt) n D med maxiter :
  diss_matrix M n D -> sizes n (length med) -> medoids n (length med) med -> 2 <= length med ->
  finds (eager_swaps (dev_better (vals D) n) (seq 0 n) med maxiter) (fasterpam (Lt := Lt) M med maxiter).
Proof.
  intros hd hs hm hk. destruct (fasterpam_all (Lt := Lt) hd maxiter hs hm) as (r & e & h).
  exists r. split; [exact e|]. exact (fa_ref h hk).
Qed.
Print Assumptions C52_fasterpam_is_eager_search.

Theorem C52_rand_fasterpam_is_eager_search {Nt Lt : Type} `{HLL : LossLaws Nt Lt} (M : Mat Nt) n D order med maxiter orc :
  diss_matrix M n D -> sizes n (length med) -> medoids n (length med) med -> 2 <= length med ->
  NoDup order -> (forall j, In j order -> j < n) -> valid_oracle orc ->
  finds (eager_swaps (dev_better (vals D) n) order med maxiter) (rand_fasterpam (Lt := Lt) M order med maxiter) /\
  finds (eager_swaps (dev_better (vals D) n) order med maxiter) (par_fasterpam (Lt := Lt) M orc order med maxiter).
Proof.
  intros hd hs hm hk hnd ho hor.
  destruct (rand_fasterpam_all (Lt := Lt) hd maxiter hs hm hnd ho) as (r & e & h).
  destruct (C13_schedule_independent (Lt := Lt) M n D orc order med maxiter hd hs hm ho hor)
    as (r1 & r2 & e1 & e2 & h1 & _ & h3 & h4 & _).
  rewrite e in e1. injection e1 as <-. split.
  - exists r. split; [exact e|]. exact (fa_ref h hk).
  - exists r2. split; [exact e2|]. rewrite <- h1, <- h3, <- h4. exact (fa_ref h hk).
Qed.
Print Assumptions C52_rand_fasterpam_is_eager_search.

Definition C52_case := C52_fasterpam_is_eager_search (Lt := Z) m6 6 d6 [0; 1; 3] 10 m6_diss s63 k63 le23.
Example C52_value : eager_swaps (dev_better (vals d6) 6) (seq 0 6) [0; 1; 3] 10 = ([4; 1; 3], 2, 2).
Proof. vm_compute. reflexivity. Qed.
Definition order6 : list nat := [3; 5; 0; 1; 4; 2].
Lemma order6_nodup : NoDup order6.
Proof. repeat constructor; simpl; lia. Qed.
Lemma order6_lt : forall j, In j order6 -> j < 6.
Proof. intros j h. simpl in h. lia. Qed.
Definition C52_rand_case := C52_rand_fasterpam_is_eager_search (Lt := Z) m6 6 d6 order6 [0; 1; 3] 10 orc2
  m6_diss s63 k63 le23 order6_nodup order6_lt orc2_ok.
Example C52_rand_value : eager_swaps (dev_better (vals d6) 6) order6 [0; 1; 3] 10 = ([5; 1; 3], 1, 2).
Proof. vm_compute. reflexivity. Qed.

(** C53.  fastpam1 and pam_swap take the best swap until there is none, ties going to the smallest new
    object and then to the first position; pam does so from the greedy initialization. *)
Theorem C53_pam_is_steepest_descent {Nt Lt : Type} `{HLL : LossLaws Nt Lt} (M : Mat Nt) n D med maxiter :
  diss_matrix M n D -> sizes n (length med) -> medoids n (length med) med -> 2 <= length med ->
  finds (best_swaps (dev_better (vals D) n) n med maxiter) (fastpam1 (Lt := Lt) M med maxiter) /\
  finds (best_swaps (dev_better (vals D) n) n med maxiter) (pam_swap (Lt := Lt) M med maxiter).
Proof.
  intros hd hs hm hk. destruct (fastpam1_all (Lt := Lt) hd maxiter hs hm) as (r & e1 & e2 & h).
  split; exists r; (split; [assumption|]); exact (sa_ref h hk).
Qed.
Print Assumptions C53_pam_is_steepest_descent.

(** greedy initialization: the best medoid, then the best further ones *)
Definition greedy_start (v : diss) (n : nat) (cands : list nat) (k : nat) : list nat :=
  grow v n cands (k - 1) [best_next v n []].

Theorem C53_build_is_greedy {Nt Lt : Type} `{HLL : LossLaws Nt Lt} (M : Mat Nt) n D k :
  diss_matrix M n D -> sizes n k ->
  exists (loss : Lt) assi, pam_build M k = Ok (loss, assi, greedy_start (vals D) n (seq 0 n) k).
Proof.
  intros hd hs. pose proof (pam_build_ok (Lt := Lt) hd hs) as h.
  apply oks_inv in h as ([[l a] ms] & e & _ & _ & _ & _ & _ & _ & _ & h).
  exists l, a. rewrite e. unfold greedy_start. congruence.
Qed.
Print Assumptions C53_build_is_greedy.

Theorem C53_pam_is_greedy_descent {Nt Lt : Type} `{HLL : LossLaws Nt Lt} (M : Mat Nt) n D k maxiter :
  diss_matrix M n D -> sizes n k -> 2 <= length (greedy_start (vals D) n (seq 0 n) k) ->
  finds (best_swaps (dev_better (vals D) n) n (greedy_start (vals D) n (seq 0 n) k) maxiter) (pam (Lt := Lt) M k maxiter).
Proof.
  intros hd hs hk. pose proof (pam_build_swap (Lt := Lt) hd maxiter hs) as h.
  apply oks_inv in h as (r & e & h). apply oks_inv in h as ([[l a] ms] & eb & h).
  apply oks_inv in h as (r' & e' & h1 & h2 & h3 & h4 & h5).
  pose proof (pam_build_ok (Lt := Lt) hd hs) as hb. apply oks_elim with (2 := eb) in hb.
  destruct hb as (q1 & q2 & _ & _ & _ & _ & _ & q3). unfold greedy_start in *. rewrite <- q3 in *.
  assert (hs' : sizes n (length ms)) by (destruct hs as (a1 & a2 & a3); split; [lia|split; [auto|lia]]).
  destruct (fastpam1_all (Lt := Lt) hd maxiter hs' q2) as (r2 & _ & e2 & hall).
  rewrite e' in e2. injection e2 as <-. exists r. split; [exact e|]. rewrite h1, h3, h4. exact (sa_ref hall hk).
Qed.
Print Assumptions C53_pam_is_greedy_descent.

Definition C53_case := C53_pam_is_steepest_descent (Lt := Z) m6 6 d6 [0; 1; 3] 10 m6_diss s63 k63 le23.
Example C53_value : best_swaps (dev_better (vals d6) 6) 6 [0; 1; 3] 10 = ([4; 1; 3], 1, 2).
Proof. vm_compute. reflexivity. Qed.
Definition C53_build_case := C53_build_is_greedy (Lt := Z) m6 6 d6 3 m6_diss s63.
Lemma greedy6 : greedy_start (vals d6) 6 (seq 0 6) 3 = [5; 1; 2].
Proof. vm_compute. reflexivity. Qed.
Lemma greedy6_len : 2 <= length (greedy_start (vals d6) 6 (seq 0 6) 3).
Proof. rewrite greedy6. simpl. lia. Qed.
Definition C53_pam_case := C53_pam_is_greedy_descent (Lt := Z) m6 6 d6 3 10 m6_diss s63 greedy6_len.

(** C54.  The same for the medoid silhouette: fastermsc is first-improvement search, fastmsc and
    pammedsil_swap are best-improvement search, and pammedsil starts with the greedy initialization
    which leaves out object 0 after the first medoid. *)
Theorem C54_msc_are_plain_searches {Nt Lt : Type} `{HLL : LossLaws Nt Lt} `{HAL : !AddLaws Nt} `{HDL : !DivLaws Nt Lt}
    (M : Mat Nt) n D med maxiter :
  diss_matrix M n D -> sizes n (length med) -> medoids n (length med) med -> 2 <= length med ->
  finds (eager_swaps (sil_better (vals D) n) (seq 0 n) med maxiter) (fastermsc (Lt := Lt) M med maxiter) /\
  finds (best_swaps (sil_better (vals D) n) n med maxiter) (fastmsc (Lt := Lt) M med maxiter) /\
  finds (best_swaps (sil_better (vals D) n) n med maxiter) (pammedsil_swap (Lt := Lt) M med maxiter).
Proof.
  intros hd hs hm hk.
  destruct (fastermsc_all (Lt := Lt) hd maxiter hs hm hk) as (r1 & e1 & _ & _ & _ & _ & h1).
  destruct (fastmsc_all (Lt := Lt) hd maxiter hs hm hk) as (r2 & e2 & _ & _ & _ & _ & h2).
  destruct (pammedsil_swap_all (Lt := Lt) hd maxiter hs hm hk) as (r3 & e3 & _ & _ & _ & _ & h3).
  split; [|split]; eexists; eauto.
Qed.
Print Assumptions C54_msc_are_plain_searches.

Theorem C54_pammedsil_is_greedy_descent {Nt Lt : Type} `{HLL : LossLaws Nt Lt} `{HAL : !AddLaws Nt}
    `{HDL : !DivLaws Nt Lt} (M : Mat Nt) n D k maxiter :
  diss_matrix M n D -> sizes n k -> 2 <= length (greedy_start (vals D) n (seq 1 (n - 1)) k) ->
  finds (best_swaps (sil_better (vals D) n) n (greedy_start (vals D) n (seq 1 (n - 1)) k) maxiter)
    (pammedsil (Lt := Lt) M k maxiter).
Proof.
  intros hd hs hk. destruct (pammedsil_ok (Lt := Lt) hd maxiter hs) as
    (meds & r & r' & e & e' & h1 & h2 & h3 & _ & _ & _ & h4).
  unfold greedy_start in *. rewrite <- h4 in *.
  assert (hs' : sizes n (length meds)) by (destruct hs as (a1 & a2 & a3); split; [lia|split; [auto|lia]]).
  destruct (pammedsil_swap_all (Lt := Lt) hd maxiter hs' h3 hk) as (r3 & e3 & _ & _ & _ & _ & q).
  rewrite e' in e3. injection e3 as <-. destruct h1 as (g1 & _ & g3 & g4 & _).
  exists r. split; [exact e|]. rewrite g1, g3, g4. exact q.
Qed.
Print Assumptions C54_pammedsil_is_greedy_descent.

Definition C54_case := C54_msc_are_plain_searches (Lt := Q) m6 6 d6 [0; 1; 3] 10 m6_diss s63 k63 le23.
Definition C54_case_k2 := C54_msc_are_plain_searches (Lt := Q) m6 6 d6 [0; 1] 10 m6_diss s62 k62 le22.
Lemma greedy6_but_0_len : 2 <= length (greedy_start (vals d6) 6 (seq 1 5) 3).
Proof. vm_compute. lia. Qed.
Definition C54_pammedsil_case := C54_pammedsil_is_greedy_descent (Lt := Q) m6 6 d6 3 10 m6_diss s63 greedy6_but_0_len.

(** C55.  alternating: clusters of nearest medoids (a medoid is in its own cluster, ties go to the first
    medoid), then the best member of every cluster (the old medoid if it is one of them, otherwise the
    first one), until nothing changes; the assignment is the one of the final medoids.  The
    initialization of pamsil takes the best further medoid k times. *)
Theorem C55_alternating_is_lloyd {Nt Lt : Type} `{HLL : LossLaws Nt Lt} (M : Mat Nt) n D med maxiter :
  diss_matrix M n D -> sizes n (length med) -> medoids n (length med) med ->
  exists r : pam_result Lt, alternating M med maxiter = Ok r /\
    (r_med r, r_iter r) = alternate (vals D) n maxiter med 0 /\
    r_assi r = clusters (vals D) n (r_med r).
Proof.
  intros hd hs hm. pose proof (alternating_ok (Lt := Lt) hd maxiter hs hm) as h.
  apply oks_inv in h as (r & e & h). exists r. split; [exact e|]. split; [exact (as_ref h)|].
  exact (cl_ref (as_clustering h)).
Qed.
Print Assumptions C55_alternating_is_lloyd.

Theorem C55_pamsil_build_is_greedy {Nt Lt : Type} `{HLL : LossLaws Nt Lt} (M : Mat Nt) n D k :
  diss_matrix M n D -> 1 <= n -> 1 <= k ->
  pamsil_build_initialize (Lt := Lt) M k = Ok (grow_all (vals D) n (k - 1) [best_next (vals D) n []]).
Proof.
  intros hd hn hk. pose proof (pamsil_build_ok (Lt := Lt) hd hn hk) as h.
  apply oks_inv in h as (meds & -> & _ & _ & _ & _ & h). congruence.
Qed.
Print Assumptions C55_pamsil_build_is_greedy.

Definition C55_case := C55_alternating_is_lloyd (Lt := Z) m6 6 d6 [0; 1; 3] 10 m6_diss s63 k63.
Example C55_value : alternate (vals d5) 5 10 [2; 1] 0 = ([0; 3], 3) /\
  clusters (vals d5) 5 [0; 3] = [0; 0; 0; 1; 1].
Proof. split; vm_compute; reflexivity. Qed.
Definition C55_build_case := C55_pamsil_build_is_greedy (Lt := Z) m6 6 d6 3 m6_diss
  (le_S _ _ (le_S _ _ (le_S _ _ (le_S _ _ (le_S _ _ (le_n 1)))))) (le_S _ _ (le_S _ _ (le_n 1))).

(** ** Scaling *)

(** the dissimilarities of the second matrix are [c] times those of the first one; the matrices and
    losses may be of different numeric types *)
Definition times (c : Q) (n : nat) (v1 v2 : diss) : Prop :=
  (0 < c)%Q /\ forall i j, i < n -> j < n -> (v2 i j == c * v1 i j)%Q.

(** the same medoids, swaps and iterations; the loss is [c] times the other one *)
Definition alike {N1 L1 N2 L2 : Type} `{HLL1 : LossLaws N1 L1} `{HLL2 : LossLaws N2 L2}
    (c : Q) (m1 : res (pam_result L1)) (m2 : res (pam_result L2)) : Prop :=
  exists r1 r2, m1 = Ok r1 /\ m2 = Ok r2 /\ r_med r2 = r_med r1 /\ r_swaps r2 = r_swaps r1 /\
    r_iter r2 = r_iter r1 /\ (vL (r_loss r2) == c * vL (r_loss r1))%Q.

Section Scaling.
  Context {N1 L1 N2 L2 : Type} `{HLL1 : LossLaws N1 L1} `{HLL2 : LossLaws N2 L2}.
  Variables (M1 : Mat N1) (M2 : Mat N2) (n : nat) (D1 : nat -> nat -> N1) (D2 : nat -> nat -> N2) (c : Q).
  Hypothesis HD1 : diss_matrix M1 n D1.
  Hypothesis HD2 : diss_matrix M2 n D2.
  Hypothesis Hc : times c n (vals D1) (vals D2).

  Lemma alike_single x (m1 : res (pam_result L1)) (m2 : res (pam_result L2)) : x < n ->
    best_single (Lt := L1) n (vals D1) x m1 -> best_single (Lt := L2) n (vals D2) x m2 -> alike c m1 m2.
  Proof.
    intros hx (r1 & b1 & e1 & p1 & p2 & _ & p3 & _ & p4 & p5 & p6) (r2 & b2 & e2 & q1 & q2 & _ & q3 & _ & q4 & q5 & q6).
    destruct Hc as [hc hv].
    assert (e : b2 = b1) by (rewrite p6, q6; apply single_scale with (c := c); auto). clear p6 q6. subst b2.
    exists r1, r2. rewrite p1, q1, p4, q4, p5, q5, q3, p3. do 5 (split; [auto|]).
    apply row_scale with (c := c); auto.
  Qed.

  Lemma alike_tdev (r1 : pam_result L1) (r2 : pam_result L2) (m1 m2 : _) x1 x2 k :
    m1 = Ok r1 -> m2 = Ok r2 -> (r_med r1, r_swaps r1, r_iter r1) = x1 -> (r_med r2, r_swaps r2, r_iter r2) = x2 ->
    x2 = x1 -> medoids n k (r_med r1) -> (vL (r_loss r1) == tdev (vals D1) n (r_med r1))%Q ->
    (vL (r_loss r2) == tdev (vals D2) n (r_med r2))%Q -> alike c m1 m2.
  Proof.
    intros e1 e2 <- <- e (_ & _ & hin) h1 h2. injection e as e3 e4 e5. exists r1, r2.
    do 5 (split; [assumption|]). rewrite h1, h2, e3. destruct Hc as [hc hv]. apply tdev_scale; auto.
  Qed.

  Let orc0 : oracle := mkOracle RSeq (fun _ _ => mkSched 1 []) (fun _ _ => RSeq).
  Lemma scale_rand order med maxiter : sizes n (length med) -> medoids n (length med) med ->
    NoDup order -> (forall j, In j order -> j < n) ->
    alike c (rand_fasterpam (Lt := L1) M1 order med maxiter) (rand_fasterpam (Lt := L2) M2 order med maxiter).
  Proof.
    intros hs hm hnd ho. destruct (Nat.eq_dec (length med) 1) as [e1|e1].
    - destruct (length_one med e1) as [x ->]. assert (hx : x < n) by (apply (proj2 (proj2 hm)); simpl; auto).
      destruct (C11_single_medoid (Lt := L1) M1 n D1 x maxiter order orc0 HD1 hs hx) as (_ & g1 & _).
      destruct (C11_single_medoid (Lt := L2) M2 n D2 x maxiter order orc0 HD2 hs hx) as (_ & g2 & _).
      apply alike_single with (x := x); auto.
    - assert (hk : 2 <= length med) by (destruct hs; lia).
      destruct (rand_fasterpam_all (Lt := L1) HD1 maxiter hs hm hnd ho) as (r1 & q1 & h1).
      destruct (rand_fasterpam_all (Lt := L2) HD2 maxiter hs hm hnd ho) as (r2 & q2 & h2).
      eapply alike_tdev; [exact q1|exact q2|apply (fa_ref h1 hk)|apply (fa_ref h2 hk)|..].
      + destruct Hc as [hc hv]. apply eager_scale with (n := n); auto; [|exact (proj2 (proj2 hm))].
        intros a b ha hb. apply dev_scale with (c := c); auto.
      + apply (fa_medoids h1).
      + apply (fa_loss h1). auto.
      + apply (fa_loss h2). auto.
  Qed.

  Lemma scale_swap med maxiter : sizes n (length med) -> medoids n (length med) med ->
    alike c (fastpam1 (Lt := L1) M1 med maxiter) (fastpam1 (Lt := L2) M2 med maxiter) /\
    alike c (pam_swap (Lt := L1) M1 med maxiter) (pam_swap (Lt := L2) M2 med maxiter).
  Proof.
    intros hs hm. destruct (Nat.eq_dec (length med) 1) as [e1|e1].
    - destruct (length_one med e1) as [x ->]. assert (hx : x < n) by (apply (proj2 (proj2 hm)); simpl; auto).
      destruct (C11_single_medoid (Lt := L1) M1 n D1 x maxiter [] orc0 HD1 hs hx) as (_ & _ & _ & g1 & g3).
      destruct (C11_single_medoid (Lt := L2) M2 n D2 x maxiter [] orc0 HD2 hs hx) as (_ & _ & _ & g2 & g4).
      split; apply alike_single with (x := x); auto.
    - assert (hk : 2 <= length med) by (destruct hs; lia).
      destruct (fastpam1_all (Lt := L1) HD1 maxiter hs hm) as (r1 & q1 & q1' & h1).
      destruct (fastpam1_all (Lt := L2) HD2 maxiter hs hm) as (r2 & q2 & q2' & h2).
      assert (he : best_swaps (dev_better (vals D2) n) n med maxiter = best_swaps (dev_better (vals D1) n) n med maxiter).
      { destruct Hc as [hc hv]. apply best_scale; [|exact (proj2 (proj2 hm))]. intros a b ha hb. apply dev_scale with (c := c); auto. }
      pose proof (sa_loss h1 (or_introl hk)). pose proof (sa_loss h2 (or_introl hk)).
      pose proof (sa_medoids h1).
      split; (eapply alike_tdev; [eassumption|eassumption|exact (sa_ref h1 hk)|exact (sa_ref h2 hk)|..]); eauto.
  Qed.

  Lemma single_start : 1 <= n -> inr n [best_next (vals D1) n []] /\ best_next (vals D2) n [] = best_next (vals D1) n [].
  Proof.
    intros hn. destruct Hc as [hc hv]. destruct (@next_scale (vals D1) (vals D2) n c hc hv []) as [e h]; auto.
    { intros m []. }
    split; auto. intros m [<-|[]]. auto.
  Qed.

  Lemma scale_start cands k : 1 <= n -> (forall y, In y cands -> y < n) ->
    greedy_start (vals D2) n cands k = greedy_start (vals D1) n cands k.
  Proof.
    intros hn hy. destruct (single_start hn) as [h e]. unfold greedy_start. rewrite e.
    destruct Hc as [hc hv]. apply (@grow_scale (vals D1) (vals D2) n c hc hv); auto.
  Qed.
End Scaling.

(** C56.  Multiplying all dissimilarities by a positive constant (in the same or another exact numeric
    type) changes neither the medoids nor the numbers of swaps and iterations, and multiplies the loss. *)
Theorem C56_scale_fasterpam {N1 L1 N2 L2 : Type} `{HLL1 : LossLaws N1 L1} `{HLL2 : LossLaws N2 L2}
    (M1 : Mat N1) (M2 : Mat N2) n D1 D2 c order med maxiter orc1 orc2 :
  diss_matrix M1 n D1 -> diss_matrix M2 n D2 -> times c n (vals D1) (vals D2) ->
  sizes n (length med) -> medoids n (length med) med -> NoDup order -> (forall j, In j order -> j < n) ->
  valid_oracle orc1 -> valid_oracle orc2 ->
  alike (HLL1 := HLL1) (HLL2 := HLL2) c (fasterpam M1 med maxiter) (fasterpam M2 med maxiter) /\
  alike (HLL1 := HLL1) (HLL2 := HLL2) c (rand_fasterpam M1 order med maxiter) (rand_fasterpam M2 order med maxiter) /\
  alike (HLL1 := HLL1) (HLL2 := HLL2) c (par_fasterpam M1 orc1 order med maxiter) (par_fasterpam M2 orc2 order med maxiter).
Proof.
  intros hd1 hd2 hc hs hm hnd ho ho1 ho2.
  assert (G : forall order, NoDup order -> (forall j, In j order -> j < n) ->
    alike (HLL1 := HLL1) (HLL2 := HLL2) c (rand_fasterpam M1 order med maxiter) (rand_fasterpam M2 order med maxiter)).
  { intros o h1 h2. eapply scale_rand; eauto. }
  split; [|split; [auto|]].
  - assert (h : forall (N L : Type) (HN : NumN N) (HL : NumL L) (HF : FromN N L) (M : Mat N) D,
      is_matrix M n D -> fasterpam (Lt := L) M med maxiter = rand_fasterpam (Lt := L) M (seq 0 n) med maxiter).
    { intros N L HN HL HF M D hM. unfold fasterpam, rand_fasterpam. rewrite (len_n hM). reflexivity. }
    rewrite (h _ _ _ _ _ _ _ (proj1 hd1)), (h _ _ _ _ _ _ _ (proj1 hd2)).
    apply G; [apply seq_NoDup|]. intros j hj. apply in_seq in hj. lia.
  - destruct (G order hnd ho) as (r1 & r2 & e1 & e2 & h1 & h2 & h3 & h4).
    destruct (C13_schedule_independent (Lt := L1) M1 n D1 orc1 order med maxiter hd1 hs hm ho ho1)
      as (a1 & b1 & q1 & q2 & q3 & _ & q5 & q6 & q7).
    destruct (C13_schedule_independent (Lt := L2) M2 n D2 orc2 order med maxiter hd2 hs hm ho ho2)
      as (a2 & b2 & p1 & p2 & p3 & _ & p5 & p6 & p7).
    rewrite e1 in q1. injection q1 as <-. rewrite e2 in p1. injection p1 as <-.
    exists b1, b2. rewrite <- q3, <- p3, <- q5, <- p5, <- q6, <- p6, <- q7, <- p7. auto 10.
Qed.
Print Assumptions C56_scale_fasterpam.

Theorem C56_scale_pam {N1 L1 N2 L2 : Type} `{HLL1 : LossLaws N1 L1} `{HLL2 : LossLaws N2 L2}
    (M1 : Mat N1) (M2 : Mat N2) n D1 D2 c k med maxiter :
  diss_matrix M1 n D1 -> diss_matrix M2 n D2 -> times c n (vals D1) (vals D2) ->
  sizes n k -> medoids n k med ->
  alike (HLL1 := HLL1) (HLL2 := HLL2) c (fastpam1 M1 med maxiter) (fastpam1 M2 med maxiter) /\
  alike (HLL1 := HLL1) (HLL2 := HLL2) c (pam_swap M1 med maxiter) (pam_swap M2 med maxiter) /\
  alike (HLL1 := HLL1) (HLL2 := HLL2) c (pam M1 k maxiter) (pam M2 k maxiter).
Proof.
  intros hd1 hd2 hc hs hm. pose proof hm as (<- & _).
  destruct (scale_swap (HLL1 := HLL1) (HLL2 := HLL2) M1 M2 n D1 D2 c hd1 hd2 hc med maxiter hs hm) as [g1 g2].
  split; [auto|]. split; [auto|].
  destruct (C17_pam_is_build_swap (Lt := L1) M1 n D1 (length med) maxiter hd1 hs)
    as (r1 & s1 & l1 & a1 & m1 & x1 & x2 & x3 & x4 & _ & x5 & x6 & x7 & _).
  destruct (C17_pam_is_build_swap (Lt := L2) M2 n D2 (length med) maxiter hd2 hs)
    as (r2 & s2 & l2 & a2 & m2 & y1 & y2 & y3 & y4 & _ & y5 & y6 & y7 & _).
  destruct (C53_build_is_greedy (Lt := L1) M1 n D1 (length med) hd1 hs) as (l1' & a1' & z1).
  destruct (C53_build_is_greedy (Lt := L2) M2 n D2 (length med) hd2 hs) as (l2' & a2' & z2).
  rewrite x2 in z1. rewrite y2 in z2. injection z1 as _ _ z1. injection z2 as _ _ z2.
  rewrite (scale_start n D1 D2 c hc) in z2; [|destruct hs; lia|intros y hy; apply in_seq in hy; lia].
  rewrite <- z1 in z2. subst m2.
  destruct (C16_pam_build (Lt := L1) M1 n D1 (length med) hd1 hs) as (l3 & a3 & m3 & w1 & w2 & w3 & w4 & _).
  rewrite x2 in w1. injection w1 as _ _ <-.
  destruct (scale_swap (HLL1 := HLL1) (HLL2 := HLL2) M1 M2 n D1 D2 c hd1 hd2 hc m1 maxiter) as [_ g3].
  - destruct hs as (b1 & b2 & b3). split; [lia|split; [auto|lia]].
  - split; [auto|]. split; auto.
  - destruct g3 as (t1 & t2 & u1 & u2 & u3 & u4 & u5 & u6).
    rewrite x3 in u1. rewrite y3 in u2. injection u1 as <-. injection u2 as <-.
    exists r1, r2. rewrite x4, y4, x5, y5, x6, y6, x7, y7. auto 10.
Qed.
Print Assumptions C56_scale_pam.

Theorem C56_scale_alternating {N1 L1 N2 L2 : Type} `{HLL1 : LossLaws N1 L1} `{HLL2 : LossLaws N2 L2}
    (M1 : Mat N1) (M2 : Mat N2) n D1 D2 c med maxiter :
  diss_matrix M1 n D1 -> diss_matrix M2 n D2 -> times c n (vals D1) (vals D2) ->
  sizes n (length med) -> medoids n (length med) med ->
  exists (r1 : pam_result L1) (r2 : pam_result L2),
    alternating M1 med maxiter = Ok r1 /\ alternating M2 med maxiter = Ok r2 /\
    r_med r2 = r_med r1 /\ r_iter r2 = r_iter r1 /\ r_assi r2 = r_assi r1 /\
    (vL (r_loss r2) == c * vL (r_loss r1))%Q.
Proof.
  intros hd1 hd2 [hc hv] hs hm.
  pose proof (alternating_ok (Lt := L1) hd1 maxiter hs hm) as h. apply oks_inv in h as (r1 & e1 & h1).
  pose proof (alternating_ok (Lt := L2) hd2 maxiter hs hm) as h. apply oks_inv in h as (r2 & e2 & h2).
  exists r1, r2. split; [exact e1|]. split; [exact e2|].
  pose proof (as_ref h2) as q2. rewrite (@alternate_scale (vals D1) (vals D2) n c hc hv) in q2 by exact (proj2 (proj2 hm)). rewrite <- (as_ref h1) in q2.
  injection q2 as q2 q3. pose proof (as_medoids h1) as (_ & _ & hin).
  split; [auto|]. split; [auto|].
  rewrite (cl_ref (as_clustering h2)), (cl_ref (as_clustering h1)), (cl_loss (as_clustering h2)), (cl_loss (as_clustering h1)), q2.
  split; [apply clusters_scale with (c := c); auto|apply tdev_scale; auto].
Qed.
Print Assumptions C56_scale_alternating.

(** the medoid silhouette is a ratio and does not change *)
Theorem C56_scale_msc {N1 L1 N2 L2 : Type} `{HLL1 : LossLaws N1 L1} `{HAL1 : !AddLaws N1} `{HDL1 : !DivLaws N1 L1}
    `{HLL2 : LossLaws N2 L2} `{HAL2 : !AddLaws N2} `{HDL2 : !DivLaws N2 L2}
    (M1 : Mat N1) (M2 : Mat N2) n D1 D2 c med maxiter :
  diss_matrix M1 n D1 -> diss_matrix M2 n D2 -> times c n (vals D1) (vals D2) ->
  sizes n (length med) -> medoids n (length med) med -> 2 <= length med ->
  alike (HLL1 := HLL1) (HLL2 := HLL2) 1 (fastermsc M1 med maxiter) (fastermsc M2 med maxiter) /\
  alike (HLL1 := HLL1) (HLL2 := HLL2) 1 (fastmsc M1 med maxiter) (fastmsc M2 med maxiter) /\
  alike (HLL1 := HLL1) (HLL2 := HLL2) 1 (pammedsil_swap M1 med maxiter) (pammedsil_swap M2 med maxiter).
Proof.
  intros hd1 hd2 [hc hv] hs hm hk.
  assert (G : forall (r1 : pam_result L1) (r2 : pam_result L2) m1 m2 x1 x2,
    m1 = Ok r1 -> m2 = Ok r2 -> msc_summary n D1 med maxiter r1 -> msc_summary n D2 med maxiter r2 ->
    (r_med r1, r_swaps r1, r_iter r1) = x1 -> (r_med r2, r_swaps r2, r_iter r2) = x2 -> x2 = x1 ->
    alike (HLL1 := HLL1) (HLL2 := HLL2) 1 m1 m2).
  { intros r1 r2 m1 m2 x1 x2 e1 e2 h1 h2 <- <- e. injection e as q1 q2 q3. exists r1, r2.
    do 5 (split; [assumption|]). rewrite (ms_value h1), (ms_value h2), q1, Qmult_1_l.
    rewrite <- (map_id (r_med r1)) at 1.
    apply scaled_sil with (c := c) (sg := fun i => i); auto using perm_id. exact (proj2 (proj2 (ms_medoids h1))). }
  assert (hb : forall a b, inr n a -> inr n b -> sil_better (vals D2) n a b = sil_better (vals D1) n a b).
  { intros a b ha hb. apply sil_scale with (c := c); auto. }
  destruct (fastermsc_all (Lt := L1) hd1 maxiter hs hm hk) as (r1 & e1 & h1 & _ & _ & _ & q1).
  destruct (fastmsc_all (Lt := L1) hd1 maxiter hs hm hk) as (r2 & e2 & h2 & _ & _ & _ & q2).
  destruct (pammedsil_swap_all (Lt := L1) hd1 maxiter hs hm hk) as (r3 & e3 & h3 & _ & _ & _ & q3).
  destruct (fastermsc_all (Lt := L2) hd2 maxiter hs hm hk) as (s1 & f1 & g1 & _ & _ & _ & p1).
  destruct (fastmsc_all (Lt := L2) hd2 maxiter hs hm hk) as (s2 & f2 & g2 & _ & _ & _ & p2).
  destruct (pammedsil_swap_all (Lt := L2) hd2 maxiter hs hm hk) as (s3 & f3 & g3 & _ & _ & _ & p3).
  split; [|split].
  - eapply G; eauto. apply eager_scale with (n := n); auto; [exact (proj2 (proj2 hm))|]. intros j hj. apply in_seq in hj. lia.
  - eapply G; eauto. apply best_scale; auto. exact (proj2 (proj2 hm)).
  - eapply G; eauto. apply best_scale; auto. exact (proj2 (proj2 hm)).
Qed.
Print Assumptions C56_scale_msc.

Theorem C56_scale_pammedsil {N1 L1 N2 L2 : Type} `{HLL1 : LossLaws N1 L1} `{HAL1 : !AddLaws N1} `{HDL1 : !DivLaws N1 L1}
    `{HLL2 : LossLaws N2 L2} `{HAL2 : !AddLaws N2} `{HDL2 : !DivLaws N2 L2}
    (M1 : Mat N1) (M2 : Mat N2) n D1 D2 c k maxiter :
  diss_matrix M1 n D1 -> diss_matrix M2 n D2 -> times c n (vals D1) (vals D2) -> sizes n k ->
  exists c', alike (HLL1 := HLL1) (HLL2 := HLL2) c' (pammedsil M1 k maxiter) (pammedsil M2 k maxiter) /\
    c' = if length (greedy_start (vals D1) n (seq 1 (n - 1)) k) =? 1 then c else 1%Q.
Proof.
  intros hd1 hd2 hc hs. eexists. split; [|reflexivity].
  destruct (pammedsil_ok (Lt := L1) hd1 maxiter hs) as (m1 & r1 & s1 & x1 & x2 & x3 & x4 & x5 & _ & _ & _ & x6).
  destruct (pammedsil_ok (Lt := L2) hd2 maxiter hs) as (m2 & r2 & s2 & y1 & y2 & y3 & y4 & y5 & _ & _ & _ & y6).
  change (m1 = greedy_start (vals D1) n (seq 1 (n - 1)) k) in x6.
  change (m2 = greedy_start (vals D2) n (seq 1 (n - 1)) k) in y6.
  rewrite (scale_start n D1 D2 c hc) in y6;
    [|destruct hs; lia|intros y hy; apply in_seq in hy; lia].
  rewrite <- x6 in *. subst m2.
  assert (hs' : sizes n (length m1)) by (destruct hs as (a1 & a2 & a3); split; [lia|split; [auto|lia]]).
  assert (G : forall c', alike (HLL1 := HLL1) (HLL2 := HLL2) c' (pammedsil_swap M1 m1 maxiter) (pammedsil_swap M2 m1 maxiter) ->
    alike (HLL1 := HLL1) (HLL2 := HLL2) c' (pammedsil M1 k maxiter) (pammedsil M2 k maxiter)).
  { intros c' (t1 & t2 & u1 & u2 & u3 & u4 & u5 & u6).
    rewrite x2 in u1. rewrite y2 in u2. injection u1 as <-. injection u2 as <-.
    destruct x3 as (v1 & _ & v3 & v4 & v5). destruct y3 as (w1 & _ & w3 & w4 & w5).
    exists r1, r2. rewrite v1, w1, v3, w3, v4, w4, v5, w5. auto 10. }
  apply G. destruct (Nat.eqb_spec (length m1) 1) as [e|e].
  - destruct (length_one m1 e) as [x ->]. assert (hx : x < n) by (apply (proj2 (proj2 x5)); simpl; auto).
    destruct (C11_msc_single_medoid (Lt := L1) M1 n D1 x maxiter hd1 hs' hx) as (_ & _ & g1).
    destruct (C11_msc_single_medoid (Lt := L2) M2 n D2 x maxiter hd2 hs' hx) as (_ & _ & g2).
    eapply alike_single; eauto.
  - assert (hk : 2 <= length m1) by lia. eapply C56_scale_msc; eauto.
Qed.
Print Assumptions C56_scale_pammedsil.

(** the integer matrix [m6], and two thirds of it as a rational matrix *)
Definition m6q : Mat Q := mat_of_rows (map (map (fun z => Qred (inject_Z z * (2 # 3)))) rows6).
Definition d6q (i j : nat) : Q := Qred (inject_Z (d6 i j) * (2 # 3)).
Lemma m6q_diss : diss_matrix m6q 6 d6q.
Proof.
  split; [split; [reflexivity|split; [reflexivity|]]|split].
  - intros x y hx hy.
    do 6 (destruct x as [|x]; [do 6 (destruct y as [|y]; [reflexivity|]); lia|]). lia.
  - intros x hx. do 6 (destruct x as [|x]; [reflexivity|]). lia.
  - intros x y hx hy. split; [exact I|].
    do 6 (destruct x as [|x]; [do 6 (destruct y as [|y]; [vm_compute; discriminate|]); lia|]). lia.
Qed.
Lemma m6q_times : times (2 # 3) 6 (vals d6) (vals d6q).
Proof. split; [reflexivity|]. intros i j _ _. unfold vals, d6q. cbn [vN OrdLaws_Q]. rewrite Qred_correct. apply Qmult_comm. Qed.
Definition C56_case := C56_scale_fasterpam (L1 := Z) (L2 := Q) m6 m6q 6 d6 d6q (2 # 3) order6 [0; 1; 3] 10 orc2 orc2
  m6_diss m6q_diss m6q_times s63 k63 order6_nodup order6_lt orc2_ok orc2_ok.
Definition C56_pam_case := C56_scale_pam (L1 := Z) (L2 := Q) m6 m6q 6 d6 d6q (2 # 3) 3 [0; 1; 3] 10
  m6_diss m6q_diss m6q_times s63 k63.
Definition C56_alternating_case := C56_scale_alternating (L1 := Z) (L2 := Q) m6 m6q 6 d6 d6q (2 # 3) [0; 1; 3] 10
  m6_diss m6q_diss m6q_times s63 k63.
Definition C56_msc_case := C56_scale_msc (L1 := Q) (L2 := Q) m6 m6q 6 d6 d6q (2 # 3) [0; 1; 3] 10
  m6_diss m6q_diss m6q_times s63 k63 le23.
Definition C56_pammedsil_case := C56_scale_pammedsil (L1 := Q) (L2 := Q) m6 m6q 6 d6 d6q (2 # 3) 3 10
  m6_diss m6q_diss m6q_times s63.

(** ** Relabelling *)

(** C57.  Numbering the objects differently: if object [i] is called [sg i] in the second matrix, then
    rand_fasterpam and par_fasterpam, with the same order of the candidates, make the same swaps. *)
Theorem C57_relabel {N1 L1 N2 L2 : Type} `{HLL1 : LossLaws N1 L1} `{HLL2 : LossLaws N2 L2}
    (M1 : Mat N1) (M2 : Mat N2) n D1 D2 sg order med maxiter orc1 orc2 :
  diss_matrix M1 n D1 -> diss_matrix M2 n D2 ->
  Permutation (map sg (seq 0 n)) (seq 0 n) ->
  (forall i j, i < n -> j < n -> (vals D2 (sg i) (sg j) == vals D1 i j)%Q) ->
  sizes n (length med) -> medoids n (length med) med -> 2 <= length med ->
  NoDup order -> (forall j, In j order -> j < n) -> valid_oracle orc1 -> valid_oracle orc2 ->
  exists (r1 r1' : pam_result L1) (r2 r2' : pam_result L2),
    rand_fasterpam M1 order med maxiter = Ok r1 /\
    rand_fasterpam M2 (map sg order) (map sg med) maxiter = Ok r2 /\
    par_fasterpam M1 orc1 order med maxiter = Ok r1' /\
    par_fasterpam M2 orc2 (map sg order) (map sg med) maxiter = Ok r2' /\
    r_med r2 = map sg (r_med r1) /\ r_swaps r2 = r_swaps r1 /\ r_iter r2 = r_iter r1 /\
    (vL (r_loss r2) == vL (r_loss r1))%Q /\
    r_med r2' = map sg (r_med r1') /\ r_swaps r2' = r_swaps r1' /\ r_iter r2' = r_iter r1' /\
    (vL (r_loss r2') == vL (r_loss r1'))%Q.
Proof.
  intros hd1 hd2 hp hv hs hm hk hnd ho ho1 ho2. pose proof hm as (_ & hmd & hin).
  assert (hr : forall i, i < n -> sg i < n).
  { intros i hi. assert (h : In (sg i) (seq 0 n)).
    { apply Permutation_in with (1 := hp). apply in_map. apply in_seq. lia. }
    apply in_seq in h. lia. }
  assert (hv' : forall i j, i < n -> j < n -> (vals D2 (sg i) (sg j) == 1 * vals D1 i j)%Q).
  { intros i j hi hj. rewrite Qmult_1_l. auto. }
  assert (h01 : (0 < 1)%Q) by reflexivity.
  assert (hnm : forall l, NoDup l -> (forall x, In x l -> x < n) -> NoDup (map sg l)).
  { induction l as [|x l IH]; intros h1 h2; [constructor|]. inversion_clear h1 as [|? ? hni hnd']. cbn [map]. constructor.
    - intros h. apply in_map_iff in h as (y & e & hy). apply hni.
      replace x with y; auto. apply (sg_inj sg hp); auto; apply h2; simpl; auto.
    - apply IH; auto. intros y hy. apply h2. simpl. auto. }
  assert (hm' : medoids n (length (map sg med)) (map sg med)).
  { split; [auto|]. split; [apply hnm; auto|]. intros x hx. apply in_map_iff in hx as (y & <- & hy). auto. }
  assert (hs' : sizes n (length (map sg med))) by (rewrite map_length; auto).
  assert (ho' : forall j, In j (map sg order) -> j < n).
  { intros j hj. apply in_map_iff in hj as (y & <- & hy). auto. }
  destruct (rand_fasterpam_all (Lt := L1) hd1 maxiter hs hm hnd ho) as (r1 & e1 & h1).
  destruct (rand_fasterpam_all (Lt := L2) hd2 maxiter hs' hm' (hnm _ hnd ho) ho') as (r2 & e2 & h2).
  destruct (C13_schedule_independent (Lt := L1) M1 n D1 orc1 order med maxiter hd1 hs hm ho ho1)
    as (a1 & r1' & q1 & e3 & q3 & _ & q5 & q6 & q7).
  destruct (C13_schedule_independent (Lt := L2) M2 n D2 orc2 (map sg order) (map sg med) maxiter hd2 hs' hm' ho' ho2)
    as (a2 & r2' & p1 & e4 & p3 & _ & p5 & p6 & p7).
  rewrite e1 in q1. injection q1 as <-. rewrite e2 in p1. injection p1 as <-.
  exists r1, r1', r2, r2'. do 4 (split; [assumption|]).
  rewrite <- q3, <- p3, <- q5, <- p5, <- q6, <- p6, <- q7, <- p7.
  assert (hk' : 2 <= length (map sg med)) by (rewrite map_length; auto).
  pose proof (fa_ref h2 hk') as x. rewrite (@eager_eq n sg hp (dev_better (vals D1) n)) in x; auto.
  2:{ intros a b ha hb. apply dev_better_eq with (c := 1%Q); auto. }
  rewrite <- (fa_ref h1 hk) in x. unfold out in x. cbn [fst snd] in x. injection x as x1 x2 x3.
  assert (x4 : (vL (r_loss r2) == vL (r_loss r1))%Q).
  { rewrite (fa_loss h1 (or_introl hk)), (fa_loss h2 (or_introl hk')), x1.
    rewrite (@scaled_tdev (vals D1) (vals D2) n 1 sg h01 hv' hp), Qmult_1_l; [reflexivity|]. exact (proj2 (proj2 (fa_medoids h1))). }
  auto 10.
Qed.
Print Assumptions C57_relabel.

Definition sg6 (i : nat) : nat := nth i [2; 0; 5; 1; 4; 3] 0.
Definition sg6' (i : nat) : nat := nth i [1; 3; 0; 5; 4; 2] 0.
Definition rows6p : list (list Z) := map (fun i => map (fun j => d6 (sg6' i) (sg6' j)) (seq 0 6)) (seq 0 6).
Lemma m6p_diss : diss_matrix (mat_of_rows rows6p) 6 (entries rows6p).
Proof. apply rows_diss; [lia|reflexivity]. Qed.
Lemma sg6_perm : Permutation (map sg6 (seq 0 6)) (seq 0 6).
Proof.
  apply NoDup_Permutation.
  - cbn. repeat (constructor; [simpl; lia|]). constructor.
  - apply seq_NoDup.
  - intros x. simpl. tauto.
Qed.
Lemma sg6_vals : forall i j, i < 6 -> j < 6 -> (vals (entries rows6p) (sg6 i) (sg6 j) == vals d6 i j)%Q.
Proof.
  intros x y hx hy. do 6 (destruct x as [|x]; [do 6 (destruct y as [|y]; [reflexivity|]); lia|]). lia.
Qed.
Definition C57_case := C57_relabel (L1 := Z) (L2 := Z) m6 (mat_of_rows rows6p) 6 d6 (entries rows6p) sg6 order6 [0; 1; 3] 10
  orc2 orc2 m6_diss m6p_diss sg6_perm sg6_vals s63 k63 le23 order6_nodup order6_lt orc2_ok orc2_ok.

(** ** Interrupting *)

(** C58.  [a] iterations and then [b] iterations from the medoids found have the same result as
    [a + b] iterations; the second run needs one iteration to find out that the first had finished. *)
Definition resumes {Nt Lt : Type} `{HLL : LossLaws Nt Lt} (f : list nat -> nat -> res (pam_result Lt)) (med : list nat)
    (a b : nat) : Prop :=
  exists r1 r2 r, f med a = Ok r1 /\ f (r_med r1) b = Ok r2 /\ f med (a + b) = Ok r /\
    r_med r2 = r_med r /\ r_swaps r1 + r_swaps r2 = r_swaps r /\ (vL (r_loss r2) == vL (r_loss r))%Q /\
    (r_iter r1 + r_iter r2 = r_iter r \/
     r_iter r1 + r_iter r2 = S (r_iter r) /\ r_med r1 = r_med r /\ r_swaps r1 = r_swaps r /\
       r_iter r1 = r_iter r /\ r_iter r2 = 1).

Lemma resumed_runs {Nt Lt : Type} `{HLL : LossLaws Nt Lt} (f : list nat -> nat -> res (pam_result Lt)) (obj : list nat -> Q)
    (g : list nat -> nat -> list nat * nat * nat) n k med a b :
  (forall md m, medoids n k md -> exists r, f md m = Ok r /\ medoids n k (r_med r) /\
     (vL (r_loss r) == obj (r_med r))%Q /\ (r_med r, r_swaps r, r_iter r) = g md m) ->
  (forall md, resumed (g md a) (g (fst (fst (g md a))) b) (g md (a + b))) ->
  medoids n k med -> resumes f med a b.
Proof.
  intros hf hg hm. destruct (hf med a hm) as (r1 & e1 & m1 & l1 & q1).
  destruct (hf (r_med r1) b m1) as (r2 & e2 & m2 & l2 & q2). destruct (hf med (a + b) hm) as (r & e & m & l & q).
  exists r1, r2, r. do 3 (split; [assumption|]).
  specialize (hg med). rewrite <- q1 in hg. cbn [fst snd] in hg. rewrite <- q2, <- q in hg.
  destruct hg as (x1 & x2 & x3). cbn [fst snd] in *. split; [auto|]. split; [auto|].
  split; [rewrite l, l2, x1; reflexivity|]. destruct x3 as [x3|(x3 & x4 & x5)]; [auto|].
  injection x4 as y1 y2 y3. right. auto 10.
Qed.

Theorem C58_resume_pam {Nt Lt : Type} `{HLL : LossLaws Nt Lt} (M : Mat Nt) n D order med a b :
  diss_matrix M n D -> sizes n (length med) -> medoids n (length med) med -> 2 <= length med ->
  NoDup order -> (forall j, In j order -> j < n) ->
  resumes (Lt := Lt) (fasterpam M) med a b /\ resumes (Lt := Lt) (rand_fasterpam M order) med a b /\
  resumes (Lt := Lt) (fastpam1 M) med a b /\ resumes (Lt := Lt) (pam_swap M) med a b.
Proof.
  intros hd hs hm hk hnd ho.
  assert (hmd : forall md, medoids n (length med) md -> length md = length med) by (intros md h; apply h).
  assert (G1 : forall md, resumed (eager_swaps (dev_better (vals D) n) (seq 0 n) md a)
    (eager_swaps (dev_better (vals D) n) (seq 0 n) (fst (fst (eager_swaps (dev_better (vals D) n) (seq 0 n) md a))) b)
    (eager_swaps (dev_better (vals D) n) (seq 0 n) md (a + b))) by (intros; apply search_resume).
  assert (G2 : forall md, resumed (eager_swaps (dev_better (vals D) n) order md a)
    (eager_swaps (dev_better (vals D) n) order (fst (fst (eager_swaps (dev_better (vals D) n) order md a))) b)
    (eager_swaps (dev_better (vals D) n) order md (a + b))) by (intros; apply search_resume).
  assert (G3 : forall md, resumed (best_swaps (dev_better (vals D) n) n md a)
    (best_swaps (dev_better (vals D) n) n (fst (fst (best_swaps (dev_better (vals D) n) n md a))) b)
    (best_swaps (dev_better (vals D) n) n md (a + b))) by (intros; apply descent_resume).
  split; [|split; [|split]].
  - apply resumed_runs with (n := n) (k := length med) (obj := tdev (vals D) n)
      (g := eager_swaps (dev_better (vals D) n) (seq 0 n)); auto.
    intros md m h. pose proof (hmd md h) as hl. rewrite <- hl in *.
    destruct (fasterpam_all (Lt := Lt) hd m hs h) as (r & e & q). exists r. split; [auto|].
    split; [apply (fa_medoids q)|]. split; [apply (fa_loss q); auto|apply (fa_ref q); auto].
  - apply resumed_runs with (n := n) (k := length med) (obj := tdev (vals D) n)
      (g := eager_swaps (dev_better (vals D) n) order); auto.
    intros md m h. pose proof (hmd md h) as hl. rewrite <- hl in *.
    destruct (rand_fasterpam_all (Lt := Lt) hd m hs h hnd ho) as (r & e & q). exists r. split; [auto|].
    split; [apply (fa_medoids q)|]. split; [apply (fa_loss q); auto|apply (fa_ref q); auto].
  - apply resumed_runs with (n := n) (k := length med) (obj := tdev (vals D) n)
      (g := best_swaps (dev_better (vals D) n) n); auto.
    intros md m h. pose proof (hmd md h) as hl. rewrite <- hl in *.
    destruct (fastpam1_all (Lt := Lt) hd m hs h) as (r & e & _ & q). exists r. split; [auto|].
    split; [apply (sa_medoids q)|]. split; [apply (sa_loss q); auto|apply (sa_ref q); auto].
  - apply resumed_runs with (n := n) (k := length med) (obj := tdev (vals D) n)
      (g := best_swaps (dev_better (vals D) n) n); auto.
    intros md m h. pose proof (hmd md h) as hl. rewrite <- hl in *.
    destruct (fastpam1_all (Lt := Lt) hd m hs h) as (r & _ & e & q). exists r. split; [auto|].
    split; [apply (sa_medoids q)|]. split; [apply (sa_loss q); auto|apply (sa_ref q); auto].
Qed.
Print Assumptions C58_resume_pam.

Theorem C58_resume_msc {Nt Lt : Type} `{HLL : LossLaws Nt Lt} `{HAL : !AddLaws Nt} `{HDL : !DivLaws Nt Lt}
    (M : Mat Nt) n D med a b :
  diss_matrix M n D -> sizes n (length med) -> medoids n (length med) med -> 2 <= length med ->
  resumes (Lt := Lt) (fastermsc M) med a b /\ resumes (Lt := Lt) (fastmsc M) med a b /\
  resumes (Lt := Lt) (pammedsil_swap M) med a b.
Proof.
  intros hd hs hm hk.
  assert (hmd : forall md, medoids n (length med) md -> length md = length med) by (intros md h; apply h).
  split; [|split].
  - apply resumed_runs with (n := n) (k := length med) (obj := med_sil (vals D) n)
      (g := eager_swaps (sil_better (vals D) n) (seq 0 n)); auto.
    + intros md m h. pose proof (hmd md h) as hl. rewrite <- hl in *.
      destruct (fastermsc_all (Lt := Lt) hd m hs h hk) as (r & e & q & _ & _ & _ & q'). exists r. split; [auto|].
      split; [apply (ms_medoids q)|]. split; [apply (ms_value q)|auto].
    + intros. apply search_resume.
  - apply resumed_runs with (n := n) (k := length med) (obj := med_sil (vals D) n)
      (g := best_swaps (sil_better (vals D) n) n); auto.
    + intros md m h. pose proof (hmd md h) as hl. rewrite <- hl in *.
      destruct (fastmsc_all (Lt := Lt) hd m hs h hk) as (r & e & q & _ & _ & _ & q'). exists r. split; [auto|].
      split; [apply (ms_medoids q)|]. split; [apply (ms_value q)|auto].
    + intros. apply descent_resume.
  - apply resumed_runs with (n := n) (k := length med) (obj := med_sil (vals D) n)
      (g := best_swaps (sil_better (vals D) n) n); auto.
    + intros md m h. pose proof (hmd md h) as hl. rewrite <- hl in *.
      destruct (pammedsil_swap_all (Lt := Lt) hd m hs h hk) as (r & e & q & _ & _ & _ & q'). exists r. split; [auto|].
      split; [apply (ms_medoids q)|]. split; [apply (ms_value q)|auto].
    + intros. apply descent_resume.
Qed.
Print Assumptions C58_resume_msc.

Theorem C58_resume_alternating {Nt Lt : Type} `{HLL : LossLaws Nt Lt} (M : Mat Nt) n D med a b :
  diss_matrix M n D -> sizes n (length med) -> medoids n (length med) med ->
  exists r1 r2 r : pam_result Lt, alternating M med a = Ok r1 /\ alternating M (r_med r1) b = Ok r2 /\
    alternating M med (a + b) = Ok r /\ r_med r2 = r_med r /\ r_assi r2 = r_assi r /\
    (vL (r_loss r2) == vL (r_loss r))%Q /\
    (r_iter r1 + r_iter r2 = r_iter r \/ r_iter r1 + r_iter r2 = S (r_iter r) /\ r_iter r1 = r_iter r /\ r_iter r2 = 1).
Proof.
  intros hd hs hm.
  pose proof (alternating_ok (Lt := Lt) hd a hs hm) as h. apply oks_inv in h as (r1 & e1 & h1).
  pose proof (as_medoids h1) as m1. pose proof (proj1 m1) as hl. rewrite <- hl in m1. 
  assert (hs1 : sizes n (length (r_med r1))) by (rewrite hl; auto).
  pose proof (alternating_ok (Lt := Lt) hd b hs1 m1) as h. apply oks_inv in h as (r2 & e2 & h2).
  pose proof (alternating_ok (Lt := Lt) hd (a + b) hs hm) as h. apply oks_inv in h as (r & e & h).
  exists r1, r2, r. do 3 (split; [assumption|]).
  pose proof (alternate_resume (vals D) n a b med) as q. cbv zeta in q.
  rewrite <- (as_ref h1), <- (as_ref h) in q. cbn [fst snd] in q. rewrite <- (as_ref h2) in q. cbn [fst snd] in q.
  destruct q as [q1 q2]. split; [auto|].
  rewrite (cl_ref (as_clustering h2)), (cl_ref (as_clustering h)), (cl_loss (as_clustering h2)), (cl_loss (as_clustering h)), q1.
  split; [auto|]. split; [reflexivity|]. destruct q2 as [q2|(q2 & q3 & q4)]; [auto|]. injection q3 as _ q3. auto.
Qed.
Print Assumptions C58_resume_alternating.

Definition C58_case := C58_resume_pam (Lt := Z) m6 6 d6 order6 [0; 1; 3] 1 9 m6_diss s63 k63 le23 order6_nodup order6_lt.
Definition C58_msc_case := C58_resume_msc (Lt := Q) m6 6 d6 [0; 1; 3] 1 9 m6_diss s63 k63 le23.
Definition C58_alternating_case := C58_resume_alternating (Lt := Z) m6 6 d6 [0; 1; 3] 1 9 m6_diss s63 k63.
