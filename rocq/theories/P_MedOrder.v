(** P_MedOrder.v -- property C95: the order in which the initial medoids are given.
    Every theorem is followed by a concrete input which meets its hypotheses. *)
From Coq Require Import ZArith QArith Lqa Lia Permutation.
From Verif Require Import Base Num M_Mat M_Util M_Fasterpam M_Pam M_ParFasterpam M_Msc M_Pammedsil Inst Hoare Spec SpecFacts Laws
  PamShape PamExact FpMain PamMain ParFacts MscFacts MscMain Reference DynExact FloatSep MedOrder Ex P_Fasterpam P_Pam P_Msc P_Restart.
From Verif Require P_Reference P_FloatSep.
Open Scope nat_scope.

(** both runs return, with the same medoids in some order, the same loss and the same numbers of swaps and iterations *)
Definition same_result {Lt} (vl : Lt -> Q) (r r' : res (pam_result Lt)) : Prop :=
  exists p p', r = Ok p /\ r' = Ok p' /\ Permutation (r_med p) (r_med p') /\ (vl (r_loss p) == vl (r_loss p'))%Q /\
    r_swaps p = r_swaps p' /\ r_iter p = r_iter p'.

Lemma alike_finds {Lt} (vl : Lt -> Q) (F : list nat -> Q) n k x x' (r r' : res (pam_result Lt)) :
  P_Reference.finds x r -> P_Reference.finds x' r' -> alike_end n k x x' ->
  (forall p, r = Ok p -> (vl (r_loss p) == F (r_med p))%Q) -> (forall p, r' = Ok p -> (vl (r_loss p) == F (r_med p))%Q) ->
  (forall a b, medoids n k a -> medoids n k b -> Permutation a b -> (F a == F b)%Q) -> same_result vl r r'.
Proof.
  intros (p & e & hx) (p' & e' & hx') ((m1 & m2 & m3) & h2 & h3) hl hl' hF. subst x x'. cbn [fst snd] in *.
  exists p, p'. split; [exact e|]. split; [exact e'|]. split; [exact m3|]. split; [|auto].
  rewrite (hl p e), (hl' p' e'). apply hF; auto.
Qed.

Lemma tdev_perm v n a b : Permutation a b -> (tdev v n a == tdev v n b)%Q.
Proof.
  intros h. apply tdev_same_set. intros x. split; intros hx; [apply (Permutation_in _ h hx)|apply (Permutation_in _ (Permutation_sym h) hx)].
Qed.

(** C95, PAM family *)
Theorem C95_pam_family {Nt Lt : Type} `{HLL : LossLaws Nt Lt} (M : Mat Nt) n D med med' maxiter order orc orc' :
  diss_matrix M n D -> sizes n (length med) -> medoids n (length med) med -> Permutation med med' -> 2 <= length med ->
  NoDup order -> (forall j, In j order -> j < n) -> valid_oracle orc -> valid_oracle orc' ->
  (forall a b, medoids n (length med) a -> medoids n (length med) b -> (tdev (vals D) n a == tdev (vals D) n b)%Q -> Permutation a b) ->
  same_result vL (fasterpam (Lt := Lt) M med maxiter) (fasterpam M med' maxiter) /\
  same_result vL (rand_fasterpam (Lt := Lt) M order med maxiter) (rand_fasterpam M order med' maxiter) /\
  same_result vL (par_fasterpam (Lt := Lt) M orc order med maxiter) (par_fasterpam M orc' order med' maxiter) /\
  same_result vL (fastpam1 (Lt := Lt) M med maxiter) (fastpam1 M med' maxiter) /\
  same_result vL (pam_swap (Lt := Lt) M med maxiter) (pam_swap M med' maxiter).
Proof.
  intros hd hs hm hp hk hnd ho hor hor' hdist. pose proof (Permutation_length hp) as hl.
  assert (hm' : medoids n (length med') med').
  { destruct hm as (m1 & m2 & m3). split; [reflexivity|]. split; [apply (Permutation_NoDup hp m2)|].
    intros m h. apply m3, (Permutation_in _ (Permutation_sym hp)), h. }
  assert (hs' : sizes n (length med')) by (rewrite <- hl; exact hs). assert (hk' : 2 <= length med') by lia.
  assert (ha : alike n (length med) med med') by (split; [exact hm|split; [rewrite hl; exact hm'|exact hp]]).
  assert (hspec : forall a b, dev_better (vals D) n a b = Qlt_bool (tdev (vals D) n a) (tdev (vals D) n b)) by reflexivity.
  assert (hF : forall a b, medoids n (length med) a -> medoids n (length med) b -> Permutation a b -> (tdev (vals D) n a == tdev (vals D) n b)%Q)
    by (intros a b _ _; apply tdev_perm).
  assert (heag : forall ord, (forall j, In j ord -> j < n) -> alike_end n (length med) (eager_swaps (dev_better (vals D) n) ord med maxiter)
    (eager_swaps (dev_better (vals D) n) ord med' maxiter)) by (intros ord h; eapply eager_alike; eauto).
  assert (hbest : alike_end n (length med) (best_swaps (dev_better (vals D) n) n med maxiter)
    (best_swaps (dev_better (vals D) n) n med' maxiter)) by (eapply best_alike; eauto).
  assert (LF : forall m, sizes n (length m) -> medoids n (length m) m -> 2 <= length m -> forall p,
    fasterpam (Lt := Lt) M m maxiter = Ok p -> (vL (r_loss p) == tdev (vals D) n (r_med p))%Q).
  { intros m s1 s2 s3 p e. destruct (fasterpam_all (Lt := Lt) hd maxiter s1 s2) as (q & e' & h). rewrite e in e'. injection e' as <-.
    exact (fa_loss h (or_introl s3)). }
  assert (LR : forall m, sizes n (length m) -> medoids n (length m) m -> 2 <= length m -> forall p,
    rand_fasterpam (Lt := Lt) M order m maxiter = Ok p -> (vL (r_loss p) == tdev (vals D) n (r_med p))%Q).
  { intros m s1 s2 s3 p e. destruct (rand_fasterpam_all (Lt := Lt) hd maxiter s1 s2 hnd ho) as (q & e' & h).
    rewrite e in e'. injection e' as <-. exact (fa_loss h (or_introl s3)). }
  assert (LP : forall o, valid_oracle o -> forall m, sizes n (length m) -> medoids n (length m) m -> 2 <= length m -> forall p,
    par_fasterpam (Lt := Lt) M o order m maxiter = Ok p -> (vL (r_loss p) == tdev (vals D) n (r_med p))%Q).
  { intros o hoo m s1 s2 s3 p e.
    destruct (C13_schedule_independent (Lt := Lt) M n D o order m maxiter hd s1 s2 ho hoo) as (q & r3 & e2 & e3 & p1 & _ & _ & _ & p4).
    rewrite e in e3. injection e3 as <-. rewrite <- p4, <- p1. apply (LR m s1 s2 s3 q e2). }
  assert (LS : forall m, sizes n (length m) -> medoids n (length m) m -> 2 <= length m -> forall p,
    (fastpam1 (Lt := Lt) M m maxiter = Ok p -> (vL (r_loss p) == tdev (vals D) n (r_med p))%Q) /\
    (pam_swap (Lt := Lt) M m maxiter = Ok p -> (vL (r_loss p) == tdev (vals D) n (r_med p))%Q)).
  { intros m s1 s2 s3 p. destruct (fastpam1_all (Lt := Lt) hd maxiter s1 s2) as (q & e1 & e2 & h).
    split; intros e; [rewrite e in e1; injection e1 as <-|rewrite e in e2; injection e2 as <-]; exact (sa_loss h (or_introl s3)). }
  destruct (P_Reference.C52_rand_fasterpam_is_eager_search (Lt := Lt) M n D order med maxiter orc hd hs hm hk hnd ho hor) as [f2 f3].
  destruct (P_Reference.C52_rand_fasterpam_is_eager_search (Lt := Lt) M n D order med' maxiter orc' hd hs' hm' hk' hnd ho hor') as [g2 g3].
  destruct (P_Reference.C53_pam_is_steepest_descent (Lt := Lt) M n D med maxiter hd hs hm hk) as [f4 f5].
  destruct (P_Reference.C53_pam_is_steepest_descent (Lt := Lt) M n D med' maxiter hd hs' hm' hk') as [g4 g5].
  split; [|split; [|split; [|split]]].
  - eapply alike_finds; [apply (P_Reference.C52_fasterpam_is_eager_search (Lt := Lt) M n D med maxiter hd hs hm hk)|
      apply (P_Reference.C52_fasterpam_is_eager_search (Lt := Lt) M n D med' maxiter hd hs' hm' hk')| |apply LF; auto|apply LF; auto|exact hF].
    apply heag. intros j hj. apply in_seq in hj. lia.
  - eapply alike_finds; [exact f2|exact g2|apply heag; exact ho|apply LR; auto|apply LR; auto|exact hF].
  - eapply alike_finds; [exact f3|exact g3|apply heag; exact ho|apply LP; auto|apply LP; auto|exact hF].
  - eapply alike_finds; [exact f4|exact g4|exact hbest|apply LS; auto|apply LS; auto|exact hF].
  - eapply alike_finds; [exact f5|exact g5|exact hbest|apply LS; auto|apply LS; auto|exact hF].
Qed.
Print Assumptions C95_pam_family.

Lemma apart_distinct f n k : sets_apart f n k 0 ->
  forall a b, medoids n k a -> medoids n k b -> (f a == f b)%Q -> Permutation a b.
Proof.
  intros h a b ha hb e. assert (hd : {same_set a b} + {~ same_set a b}).
  { destruct (Forall_dec (fun x => In x b) (fun x => in_dec Nat.eq_dec x b) a) as [i1|i1];
      [destruct (Forall_dec (fun x => In x a) (fun x => in_dec Nat.eq_dec x a) b) as [i2|i2]|].
    - rewrite Forall_forall in i1, i2. left. intros x. split; [apply i1|apply i2].
    - right. intros hs. apply i2, Forall_forall. intros x. apply hs.
    - right. intros hs. apply i1, Forall_forall. intros x. apply hs. }
  destruct hd as [hs|hs]; [apply NoDup_Permutation; [apply ha|apply hb|exact hs]|].
  specialize (h a b ha hb hs). exfalso. rewrite e in h. setoid_replace (f b - f b)%Q with 0%Q in h by ring. vm_compute in h. discriminate.
Qed.
Lemma az_distinct : forall a b, medoids 5 2 a -> medoids 5 2 b ->
  (tdev (vals (entries P_FloatSep.rows_az)) 5 a == tdev (vals (entries P_FloatSep.rows_az)) 5 b)%Q -> Permutation a b.
Proof. apply apart_distinct, P_FloatSep.apartb_spec. vm_compute. reflexivity. Qed.
Lemma az_sil_distinct : forall a b, medoids 5 2 a -> medoids 5 2 b ->
  (med_sil (vals (entries P_FloatSep.rows_az)) 5 a == med_sil (vals (entries P_FloatSep.rows_az)) 5 b)%Q -> Permutation a b.
Proof. apply apart_distinct, P_FloatSep.apartb_spec. vm_compute. reflexivity. Qed.
Lemma ord5 : NoDup [4; 2; 0; 1; 3]. Proof. repeat constructor; simpl; lia. Qed.
Lemma ord5_in : forall j, In j [4; 2; 0; 1; 3] -> j < 5. Proof. simpl. lia. Qed.
Definition C95_case := C95_pam_family (Lt := Z) (mat_of_rows P_FloatSep.rows_az) 5 (entries P_FloatSep.rows_az) [0; 1] [1; 0] 10
  [4; 2; 0; 1; 3] orc2 orc2 P_FloatSep.az_diss s52 k52 (perm_swap 1 0 []) (le_n 2) ord5 ord5_in orc2_ok orc2_ok az_distinct.
Example C95_value :
  fasterpam (Lt := Z) (mat_of_rows P_FloatSep.rows_az) [0; 1] 10 = Ok (mkPR 20%Z [1; 1; 1; 0; 1] 2 2 [3; 2]) /\
  exists p, fasterpam (Lt := Z) (mat_of_rows P_FloatSep.rows_az) [1; 0] 10 = Ok p /\ r_med p = [2; 3].
Proof. split; [|eexists; split]; vm_compute; reflexivity. Qed.

(** C95, medoid silhouette *)
Theorem C95_msc_family {Nt Lt : Type} `{HLL : LossLaws Nt Lt} `{HAL : !AddLaws Nt} `{HDL : !DivLaws Nt Lt} (M : Mat Nt) n D med med' maxiter :
  diss_matrix M n D -> sizes n (length med) -> medoids n (length med) med -> Permutation med med' -> 2 <= length med ->
  (forall a b, medoids n (length med) a -> medoids n (length med) b -> (med_sil (vals D) n a == med_sil (vals D) n b)%Q -> Permutation a b) ->
  same_result vL (fastermsc (Lt := Lt) M med maxiter) (fastermsc M med' maxiter) /\
  same_result vL (fastmsc (Lt := Lt) M med maxiter) (fastmsc M med' maxiter) /\
  same_result vL (pammedsil_swap (Lt := Lt) M med maxiter) (pammedsil_swap M med' maxiter).
Proof.
  intros hd hs hm hp hk hdist. pose proof (Permutation_length hp) as hl.
  assert (hm' : medoids n (length med') med').
  { destruct hm as (m1 & m2 & m3). split; [reflexivity|]. split; [apply (Permutation_NoDup hp m2)|].
    intros m h. apply m3, (Permutation_in _ (Permutation_sym hp)), h. }
  assert (hs' : sizes n (length med')) by (rewrite <- hl; exact hs). assert (hk' : 2 <= length med') by lia.
  assert (ha : alike n (length med) med med') by (split; [exact hm|split; [rewrite hl; exact hm'|exact hp]]).
  set (f := fun m => (- med_sil (vals D) n m)%Q).
  assert (hspec : forall a b, sil_better (vals D) n a b = Qlt_bool (f a) (f b)).
  { intros a b. apply Bool.eq_true_iff_eq. unfold sil_better, f. rewrite !Qlt_bool_iff. split; intros h; lra. }
  assert (hF : forall a b, medoids n (length med) a -> medoids n (length med) b -> Permutation a b ->
    (med_sil (vals D) n a == med_sil (vals D) n b)%Q).
  { intros a b (a1 & _) _ h. apply med_sil_perm; [lia|exact h]. }
  assert (hf : forall a b, medoids n (length med) a -> medoids n (length med) b -> Permutation a b -> (f a == f b)%Q).
  { intros a b h1 h2 h3. unfold f. rewrite (hF a b h1 h2 h3). reflexivity. }
  assert (hdf : distinct_values f n (length med)).
  { intros a b h1 h2 h3. apply hdist; auto. unfold f in h3. lra. }
  pose proof (@eager_alike n (length med) _ f hspec hf hdf (seq 0 n) med med' maxiter ltac:(intros j hj; apply in_seq in hj; lia) ha) as heag.
  pose proof (@best_alike n (length med) _ f hspec hf hdf med med' maxiter ha) as hbest.
  destruct (P_Reference.C54_msc_are_plain_searches (Lt := Lt) M n D med maxiter hd hs hm hk) as (f1 & f2 & f3).
  destruct (P_Reference.C54_msc_are_plain_searches (Lt := Lt) M n D med' maxiter hd hs' hm' hk') as (g1 & g2 & g3).
  assert (L : forall m, sizes n (length m) -> medoids n (length m) m -> 2 <= length m -> forall p : pam_result Lt,
    fastermsc M m maxiter = Ok p \/ fastmsc M m maxiter = Ok p \/ pammedsil_swap M m maxiter = Ok p ->
    (vL (r_loss p) == med_sil (vals D) n (r_med p))%Q).
  { intros m s1 s2 s3 p h.
    destruct (fastermsc_all (Lt := Lt) hd maxiter s1 s2 s3) as (r1 & e1 & h1 & _).
    destruct (fastmsc_all (Lt := Lt) hd maxiter s1 s2 s3) as (r2 & e2 & h2 & _).
    destruct (pammedsil_swap_all (Lt := Lt) hd maxiter s1 s2 s3) as (r3 & e3 & h3 & _).
    destruct h as [h|[h|h]]; [rewrite e1 in h|rewrite e2 in h|rewrite e3 in h]; injection h as <-;
      [exact (ms_value h1)|exact (ms_value h2)|exact (ms_value h3)]. }
  split; [|split].
  - eapply alike_finds; [exact f1|exact g1|exact heag|intros p e; apply (L med); auto|intros p e; apply (L med'); auto|exact hF].
  - eapply alike_finds; [exact f2|exact g2|exact hbest|intros p e; apply (L med); auto|intros p e; apply (L med'); auto|exact hF].
  - eapply alike_finds; [exact f3|exact g3|exact hbest|intros p e; apply (L med); auto|intros p e; apply (L med'); auto|exact hF].
Qed.
Print Assumptions C95_msc_family.
Definition C95_msc_case := C95_msc_family (Lt := Q) (mat_of_rows P_FloatSep.rows_az) 5 (entries P_FloatSep.rows_az) [0; 1] [1; 0] 10
  P_FloatSep.az_diss s52 k52 (perm_swap 1 0 []) (le_n 2) az_sil_distinct.

(** With ties the order matters, even for the loss. *)
Definition rows_tie : list (list Z) :=
  [[0; 2; 2; 1; 1]; [2; 0; 2; 3; 3]; [2; 2; 0; 3; 2]; [1; 3; 3; 0; 3]; [1; 3; 2; 3; 0]]%Z.
Theorem C95_ties_refuted : exists (M : Mat Z) D (med med' : list nat), diss_matrix M 5 D /\ symmetric 5 (vals D) /\ medoids 5 3 med /\
  Permutation med med' /\
  (exists p p' : pam_result Z, fasterpam M med 10 = Ok p /\ fasterpam M med' 10 = Ok p' /\
     r_iter p < 10 /\ r_iter p' < 10 /\ ~ (vL (r_loss p) == vL (r_loss p'))%Q) /\
  (exists p p' : pam_result Z, fastpam1 M med 10 = Ok p /\ fastpam1 M med' 10 = Ok p' /\
     r_iter p < 10 /\ r_iter p' < 10 /\ ~ (vL (r_loss p) == vL (r_loss p'))%Q).
Proof.
  exists (mat_of_rows rows_tie), (entries rows_tie), [0; 4; 3], [3; 4; 0].
  split; [apply rows_diss; [lia|reflexivity]|]. split; [apply rows_sym; reflexivity|]. split; [apply meds_ok; reflexivity|].
  split; [apply NoDup_Permutation; [repeat constructor; simpl; lia..|]; intros x; simpl; tauto|].
  split; do 2 eexists; (split; [vm_compute; reflexivity|]); (split; [vm_compute; reflexivity|]); cbn [r_iter]; split; [lia| |lia|];
    (split; [lia|vm_compute; discriminate]).
Qed.
Print Assumptions C95_ties_refuted.
