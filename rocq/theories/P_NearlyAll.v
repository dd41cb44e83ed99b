(** P_NearlyAll.v -- property C92: all objects but one as medoids.  The searches by swaps find the global optimum with at most one
    swap, in the first iteration; the loss is the smallest dissimilarity of two different objects.
    Every theorem is followed by a concrete input which meets its hypotheses. *)
From Coq Require Import ZArith QArith Lqa Lia Permutation.
From Verif Require Import Base Num M_Mat M_Util M_Fasterpam M_Pam M_ParFasterpam M_Msc M_Pammedsil Inst Hoare Spec SpecFacts Laws PamShape PamExact
  FpMain PamMain ParFacts BuildFacts MscFacts Reference FloatSep FloatSepMsc DynExact NearlyAll Ex P_Fasterpam P_Pam P_Msc.
From Verif Require P_Reference.
Open Scope nat_scope.

(** [q] is the smallest dissimilarity of two different objects *)
Definition smallest_diss (v : diss) (n : nat) (q : Q) : Prop :=
  (exists x y, x < n /\ y < n /\ x <> y /\ (q == v x y)%Q) /\
  (forall x y, x < n -> y < n -> x <> y -> (q <= v x y)%Q).

(** the run ends well: at most one swap, and no further iteration but the one which finds nothing more to do *)
Definition one_swap {Lt} (n : nat) (med : list nat) (maxiter : nat) (p : pam_result Lt) : Prop :=
  medoids n (length med) (r_med p) /\ r_swaps p <= 1 /\ r_iter p = Nat.min (S (r_swaps p)) maxiter /\ (r_swaps p = 0 -> r_med p = med).

Definition best_dev {Lt} (vl : Lt -> Q) (v : diss) (n : nat) (med : list nat) (maxiter : nat) (r : res (pam_result Lt)) : Prop :=
  exists p, r = Ok p /\ one_swap n med maxiter p /\
    (forall m, medoids n (length med) m -> (tdev v n (r_med p) <= tdev v n m)%Q) /\
    smallest_diss v n (vl (r_loss p)).

(** the best set of medoids leaves out one of a closest pair *)
Lemma best_smallest v n k med : n = S k -> 1 <= k -> dissimilarity n v -> medoids n k med ->
  (forall m, medoids n k m -> (tdev v n med <= tdev v n m)%Q) -> smallest_diss v n (tdev v n med).
Proof.
  intros hn hk hv hm hb. destruct (missing hn hm) as (x & hx & hni & hall). split.
  - destruct (mindist_in v x (med := med)) as (y & hy & e); [intros ->; destruct hm as [hm _]; simpl in hm; lia|].
    exists x, y. split; [exact hx|]. split; [apply hm; exact hy|]. split; [intros ->; contradiction|].
    rewrite (@tdev_missing v n k med x) by auto. exact e.
  - intros a c ha hc hac.
    (* the medoids without [a] *)
    set (ma := filter (fun y => negb (y =? a)) (seq 0 n)).
    assert (hin : forall y, In y ma <-> y < n /\ y <> a).
    { intros y. unfold ma. rewrite filter_In, in_seq, negb_true_iff, Nat.eqb_neq. lia. }
    assert (hma : medoids n k ma).
    { split; [|split; [apply NoDup_filter, seq_NoDup|intros y hy; apply hin in hy; lia]].
      assert (hp : Permutation (a :: ma) (seq 0 n)).
      { apply NoDup_Permutation; [constructor; [rewrite hin; lia|apply NoDup_filter, seq_NoDup]|apply seq_NoDup|].
        intros y. cbn [In]. rewrite hin, in_seq. split; [intros [<-|h]; lia|]. intros h. destruct (Nat.eq_dec a y); [left|right]; lia. }
      apply Permutation_length in hp. rewrite seq_length in hp. simpl in hp. lia. }
    eapply Qle_trans; [apply (hb ma hma)|].
    rewrite (@tdev_missing v n k ma a) by (auto; rewrite hin; lia). apply mindist_le. apply hin. auto.
Qed.

Lemma dev_same_set v n k a b : medoids n k a -> medoids n k b -> same_set a b -> (tdev v n a == tdev v n b)%Q.
Proof. intros _ _. apply tdev_same_set. Qed.

Lemma order_all n order : Permutation order (seq 0 n) -> forall j, j < n <-> In j order.
Proof.
  intros hp j. split; intros h.
  - apply (Permutation_in _ (Permutation_sym hp)), in_seq. lia.
  - apply (Permutation_in _ hp), in_seq in h. lia.
Qed.

(** C92, PAM family.  [order] and [orc]: any order of the candidates, any schedule of the parallel searches. *)
Theorem C92_pam_family {Nt Lt : Type} `{HLL : LossLaws Nt Lt} (M : Mat Nt) n D med maxiter order orc :
  diss_matrix M n D -> sizes n (length med) -> medoids n (length med) med -> n = S (length med) -> 2 <= length med -> 1 <= maxiter ->
  Permutation order (seq 0 n) -> valid_oracle orc ->
  best_dev vL (vals D) n med maxiter (fasterpam (Lt := Lt) M med maxiter) /\
  best_dev vL (vals D) n med maxiter (rand_fasterpam (Lt := Lt) M order med maxiter) /\
  best_dev vL (vals D) n med maxiter (par_fasterpam (Lt := Lt) M orc order med maxiter) /\
  best_dev vL (vals D) n med maxiter (fastpam1 (Lt := Lt) M med maxiter) /\
  best_dev vL (vals D) n med maxiter (pam_swap (Lt := Lt) M med maxiter).
Proof.
  intros hd hs hm hn hk hmi hp hor. pose proof (proj2 (proj1 (emb_vals hd))) as hv.
  assert (conv : forall x (r : res (pam_result Lt)), P_Reference.finds x r ->
    (exists m s, x = (m, s, Nat.min (S s) maxiter) /\ medoids n (length med) m /\
       best_set n (length med) (tdev (vals D) n) m /\ s <= 1 /\ (s = 0 -> m = med)) ->
    (forall p, r = Ok p -> (vL (r_loss p) == tdev (vals D) n (r_med p))%Q) ->
    best_dev vL (vals D) n med maxiter r).
  { intros x r (p & e & hx) (m & s & -> & h1 & h2 & h3 & h4) hl. injection hx as e1 e2 e3.
    exists p. split; [exact e|]. unfold one_swap. rewrite e1, e2, e3. split; [auto|]. split; [exact h2|].
    specialize (hl p e). rewrite e1 in hl.
    assert (hb := @best_smallest (vals D) n (length med) m hn ltac:(lia) hv h1 h2).
    destruct hb as [(a & b & q1 & q2 & q3 & q4) hq]. split.
    - exists a, b. rewrite hl. auto.
    - intros a' b' k1 k2 k3. rewrite hl. apply hq; auto. }
  assert (hnd : NoDup order) by (apply (Permutation_NoDup (Permutation_sym hp)), seq_NoDup).
  pose proof (order_all n order hp) as ho.
  assert (hspec : forall a b, dev_better (vals D) n a b = Qlt_bool (tdev (vals D) n a) (tdev (vals D) n b)) by reflexivity.
  assert (heag : forall ord, (forall j, j < n <-> In j ord) -> exists m s, eager_swaps (dev_better (vals D) n) ord med maxiter =
      (m, s, Nat.min (S s) maxiter) /\ medoids n (length med) m /\ best_set n (length med) (tdev (vals D) n) m /\ s <= 1 /\ (s = 0 -> m = med)).
  { intros ord hord. exact (eager_one hn _ _ hspec (dev_same_set (vals D) n (length med)) ord hm hmi hord). }
  pose proof (best_one hn _ _ hspec (dev_same_set (vals D) n (length med)) hm hmi) as hbest.
  destruct (P_Reference.C52_rand_fasterpam_is_eager_search (Lt := Lt) M n D order med maxiter orc hd hs hm hk hnd
    (fun j => proj2 (ho j)) hor) as [f2 f3].
  destruct (P_Reference.C53_pam_is_steepest_descent (Lt := Lt) M n D med maxiter hd hs hm hk) as [f4 f5].
  destruct (rand_fasterpam_all (Lt := Lt) hd maxiter hs hm hnd (fun j => proj2 (ho j))) as (r2 & e2 & h2).
  destruct (C14_steepest_descent (Lt := Lt) M n D med maxiter hd hs hm (or_introl hk)) as (r4 & e4 & e5 & h4).
  destruct (C13_schedule_independent (Lt := Lt) M n D orc order med maxiter hd hs hm (fun j => proj2 (ho j)) hor)
    as (q & r3 & q1 & e3 & q2 & _ & _ & _ & q3).
  rewrite e2 in q1. injection q1 as <-.
  split; [|split; [|split; [|split]]].
  - apply (conv _ _ (P_Reference.C52_fasterpam_is_eager_search (Lt := Lt) M n D med maxiter hd hs hm hk)).
    + apply heag. intros j. rewrite in_seq. lia.
    + intros p e. destruct (fasterpam_all (Lt := Lt) hd maxiter hs hm) as (r & e' & h). rewrite e in e'. injection e' as <-.
      exact (fa_loss h (or_introl hk)).
  - apply (conv _ _ f2 (heag _ ho)). intros p e. rewrite e2 in e. injection e as <-. exact (fa_loss h2 (or_introl hk)).
  - apply (conv _ _ f3 (heag _ ho)). intros p e. rewrite e3 in e. injection e as <-. rewrite <- q3, <- q2. exact (fa_loss h2 (or_introl hk)).
  - apply (conv _ _ f4 hbest). intros p e. rewrite e4 in e. injection e as <-. apply h4.
  - apply (conv _ _ f5 hbest). intros p e. rewrite e5 in e. injection e as <-. apply h4.
Qed.
Print Assumptions C92_pam_family.

Lemma s54 : sizes 5 4. Proof. apply sizes_ok. reflexivity. Qed.
Lemma k54 : medoids 5 4 [3; 0; 1; 4]. Proof. apply meds_ok. reflexivity. Qed.
Lemma perm5 : Permutation [3; 0; 1; 4; 2] (seq 0 5).
Proof.
  apply NoDup_Permutation; [repeat constructor; simpl; lia|apply seq_NoDup|]. intros x. rewrite in_seq. simpl. lia.
Qed.
Lemma le24 : 2 <= 4. Proof. lia. Qed.
Lemma le1_10 : 1 <= 10. Proof. lia. Qed.
Definition C92_pam_case := C92_pam_family (Lt := Z) m5 5 d5 [3; 0; 1; 4] 10 [3; 0; 1; 4; 2] orc2 m5_diss s54 k54 eq_refl le24 le1_10
  perm5 orc2_ok.
(** object 2 is missing at first; one of the two closest objects 3 and 4 at the end *)
Example C92_pam_value : fasterpam (Lt := Z) m5 [3; 0; 1; 4] 10 = Ok (mkPR 1%Z [1; 2; 0; 3; 3] 2 1 [2; 0; 1; 4]).
Proof. vm_compute. reflexivity. Qed.

(** C92, PAM with BUILD.  BUILD may find fewer medoids, if these have no deviation; then some dissimilarity is zero. *)
Theorem C92_pam {Nt Lt : Type} `{HLL : LossLaws Nt Lt} (M : Mat Nt) n D k maxiter :
  diss_matrix M n D -> symmetric n (vals D) -> sizes n k -> n = S k -> 2 <= k -> 1 <= maxiter ->
  exists p, pam (Lt := Lt) M k maxiter = Ok p /\ smallest_diss (vals D) n (vL (r_loss p)) /\ r_swaps p <= 1 /\ r_iter p <= 2.
Proof.
  intros hd hsym hs hn hk hmi. pose proof (proj2 (proj1 (emb_vals hd))) as hv.
  destruct (C17_pam_is_build_swap (Lt := Lt) M n D k maxiter hd hs)
    as (p & p' & loss & assi & meds & e & eb & ep & h1 & h2 & h3 & h4 & h5 & h6).
  specialize (h6 (or_intror hsym)). exists p. split; [exact e|].
  pose proof (pam_build_ok (Lt := Lt) hd hs) as hb. apply oks_elim with (2 := eb) in hb.
  destruct hb as (b1 & b2 & _ & b3 & _ & _ & b4 & _).
  assert (hs' : sizes n (length meds)) by (destruct hs as (a1 & a2 & a3); split; [lia|split; [auto|lia]]).
  destruct (Nat.eq_dec (length meds) k) as [ek|nk].
  - assert (hn' : n = S (length meds)) by lia. assert (hk' : 2 <= length meds) by lia.
    destruct (C92_pam_family (Lt := Lt) M n D meds maxiter (seq 0 n) _ hd hs' b2 hn' hk' hmi (Permutation_refl _) orc2_ok)
      as (_ & _ & _ & _ & (r & er & (_ & o1 & o2 & _) & _ & [(a & b & q1 & q2 & q3 & q4) hq])).
    rewrite ep in er. injection er as <-. rewrite h3, h4. split; [|lia]. split.
    + exists a, b. rewrite h5. auto.
    + intros a' b' k1 k2 k3. rewrite h5. apply hq; auto.
  - destruct b4 as [b4|b4]; [lia|].
    destruct (C14_steepest_descent (Lt := Lt) M n D meds maxiter hd hs' b2 (or_intror hsym)) as
      (r & _ & er & m1 & m2 & m3 & m4 & m5 & m6 & m7 & m8 & m9 & m10 & m11 & _). rewrite ep in er. injection er as <-.
    assert (hz : (vL (r_loss p') == 0)%Q).
    { assert (0 <= vL (r_loss p'))%Q by (rewrite m6; apply tdev_nonneg; [exact hv|apply m1]). lra. }
    assert (hx : exists x, x < n /\ ~ In x meds).
    { destruct (List.Forall_Exists_dec (fun y => In y meds) (fun y => in_dec Nat.eq_dec y meds) (seq 0 n)) as [h|h].
      - exfalso. rewrite Forall_forall in h. pose proof (NoDup_incl_length (seq_NoDup n 0) h) as hlen. rewrite seq_length in hlen. lia.
      - apply Exists_exists in h as (x & hx & hni). apply in_seq in hx. exists x. split; [lia|exact hni]. }
    destruct hx as (x & hx & hni).
    assert (h0 : (mindist (vals D) x meds == 0)%Q).
    { assert (hle : (mindist (vals D) x meds <= tdev (vals D) n meds)%Q).
      { unfold tdev. apply (@sumQ_one_le (fun o => mindist (vals D) o meds) (seq 0 n) x); [|apply in_seq; lia].
        intros o ho. apply in_seq in ho. apply mindist_nonneg with (n := n); [exact hv|lia|apply b2]. }
      assert (0 <= mindist (vals D) x meds)%Q by (apply mindist_nonneg with (n := n); [exact hv|exact hx|apply b2]). lra. }
    split.
    + split.
      * destruct (mindist_in (vals D) x (med := meds)) as (y & hy & ey); [intros ->; simpl in b1; lia|].
        exists x, y. split; [exact hx|]. split; [apply b2; exact hy|]. split; [intros ->; contradiction|]. rewrite h5, hz, <- ey. lra.
      * intros a b ha hb _. rewrite h5, hz. apply hv; auto.
    + destruct (Nat.eq_dec (r_swaps p') 0) as [e0|hne].
      * rewrite h3, h4, e0. lia.
      * exfalso. assert (hlt : (vL (r_loss p') < tdev (vals D) n meds)%Q) by (apply m8; lia). lra.
Qed.
Print Assumptions C92_pam.
Definition C92_pam_build_case := C92_pam (Lt := Z) m5 5 d5 4 10 m5_diss m5_sym s54 eq_refl le24 le1_10.
Example C92_pam_build_value : exists p, pam (Lt := Z) m5 4 10 = Ok p /\ r_loss p = 1%Z.
Proof. eexists. split; vm_compute; reflexivity. Qed.

(** C92, medoid silhouette *)
Definition best_sil {Lt} (v : diss) (n : nat) (med : list nat) (maxiter : nat) (r : res (pam_result Lt)) : Prop :=
  exists p, r = Ok p /\ one_swap n med maxiter p /\
    (forall m, medoids n (length med) m -> (med_sil v n m <= med_sil v n (r_med p))%Q).

Theorem C92_msc_family {Nt Lt : Type} `{HLL : LossLaws Nt Lt} `{HAL : !AddLaws Nt} `{HDL : !DivLaws Nt Lt} (M : Mat Nt) n D med maxiter :
  diss_matrix M n D -> sizes n (length med) -> medoids n (length med) med -> n = S (length med) -> 2 <= length med -> 1 <= maxiter ->
  best_sil (vals D) n med maxiter (fastermsc (Lt := Lt) M med maxiter) /\
  best_sil (vals D) n med maxiter (fastmsc (Lt := Lt) M med maxiter) /\
  best_sil (vals D) n med maxiter (pammedsil_swap (Lt := Lt) M med maxiter).
Proof.
  intros hd hs hm hn hk hmi. set (f := fun m => (- med_sil (vals D) n m)%Q).
  assert (conv : forall x (r : res (pam_result Lt)), P_Reference.finds x r ->
    (exists m s, x = (m, s, Nat.min (S s) maxiter) /\ medoids n (length med) m /\ best_set n (length med) f m /\ s <= 1 /\ (s = 0 -> m = med)) ->
    best_sil (vals D) n med maxiter r).
  { intros x r (p & e & hx) (m & s & -> & h1 & h2 & h3 & h4). injection hx as e1 e2 e3.
    exists p. split; [exact e|]. unfold one_swap. rewrite e1, e2, e3. split; [auto|].
    intros m' hm'. specialize (h2 m' hm'). unfold f in h2. lra. }
  assert (hspec : forall a b, sil_better (vals D) n a b = Qlt_bool (f a) (f b)).
  { intros a b. apply Bool.eq_true_iff_eq. unfold sil_better, f. rewrite !Qlt_bool_iff. split; intros h; lra. }
  assert (hset : forall a b, medoids n (length med) a -> medoids n (length med) b -> same_set a b -> (f a == f b)%Q).
  { intros a b (a1 & a2 & a3) (b1 & b2 & b3) h. unfold f.
    rewrite (@med_sil_perm (vals D) n a b); [reflexivity|lia|]. apply NoDup_Permutation; auto. }
  destruct (P_Reference.C54_msc_are_plain_searches (Lt := Lt) M n D med maxiter hd hs hm hk) as (f1 & f2 & f3).
  pose proof (best_one hn _ _ hspec hset hm hmi) as hbest.
  split; [|split].
  - apply (conv _ _ f1). apply (eager_one hn _ _ hspec hset (seq 0 n) hm hmi). intros j. rewrite in_seq. lia.
  - exact (conv _ _ f2 hbest).
  - exact (conv _ _ f3 hbest).
Qed.
Print Assumptions C92_msc_family.
Definition C92_msc_case := C92_msc_family (Lt := Q) m5 5 d5 [3; 0; 1; 4] 10 m5_diss s54 k54 eq_refl le24 le1_10.
Example C92_msc_value : exists p, fastmsc (Lt := Q) m5 [3; 0; 1; 4] 10 = Ok p /\ r_med p = [3; 0; 1; 2] /\ r_swaps p = 1.
Proof. eexists. vm_compute. auto. Qed.

(** With one medoid less this does not hold: the result need not be the optimum, and no number of iterations helps. *)
Definition rows_two : list (list Z) := [[0; 5; 1; 1]; [5; 0; 2; 2]; [1; 2; 0; 5]; [1; 2; 5; 0]]%Z.
Theorem C92_two_missing_refuted : exists (M : Mat Z) D med best, diss_matrix M 4 D /\ symmetric 4 (vals D) /\
  medoids 4 2 med /\ medoids 4 2 best /\ (tdev (vals D) 4 best < tdev (vals D) 4 med)%Q /\
  forall maxiter, 1 <= maxiter ->
    (exists p : pam_result Z, fasterpam M med maxiter = Ok p /\ r_med p = med) /\
    (exists p : pam_result Z, fastpam1 M med maxiter = Ok p /\ r_med p = med).
Proof.
  exists (mat_of_rows rows_two), (entries rows_two), [2; 3], [0; 1].
  assert (hd : diss_matrix (mat_of_rows rows_two) 4 (entries rows_two)) by (apply rows_diss; [lia|reflexivity]).
  assert (hm : medoids 4 2 [2; 3]) by (apply meds_ok; reflexivity).
  assert (hs : sizes 4 2) by (apply sizes_ok; reflexivity).
  split; [exact hd|]. split; [apply rows_sym; reflexivity|]. split; [exact hm|]. split; [apply meds_ok; reflexivity|].
  split; [vm_compute; reflexivity|]. intros maxiter hmi. destruct maxiter as [|mi]; [lia|]. split.
  - destruct (P_Reference.C52_fasterpam_is_eager_search (Lt := Z) _ 4 _ [2; 3] (S mi) hd hs hm (le_n 2)) as (p & e & h).
    exists p. split; [exact e|].
    assert (hp : eager_swaps (dev_better (vals (entries rows_two)) 4) (seq 0 4) [2; 3] (S mi) = ([2; 3], 0, 1)) by (vm_compute; reflexivity).
    rewrite hp in h. congruence.
  - destruct (P_Reference.C53_pam_is_steepest_descent (Lt := Z) _ 4 _ [2; 3] (S mi) hd hs hm (le_n 2)) as ((p & e & h) & _).
    exists p. split; [exact e|].
    assert (hp : best_swaps (dev_better (vals (entries rows_two)) 4) 4 [2; 3] (S mi) = ([2; 3], 0, 1)) by (vm_compute; reflexivity).
    rewrite hp in h. congruence.
Qed.
Print Assumptions C92_two_missing_refuted.
