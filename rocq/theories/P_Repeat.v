(** P_Repeat.v -- property C103: all objects repeated equally often.  If every object occurs m times, in any order, the medoids found
    for the single objects stay, and the loss is m times as large.
    Every theorem is followed by a concrete input which meets its hypotheses. *)
From Coq Require Import ZArith QArith Lqa Lia Permutation.
From Verif Require Import Base Num M_Mat M_Util M_Fasterpam M_Pam M_Alternating M_ParFasterpam M_Msc Inst Hoare Spec SpecFacts Laws
  PamShape PamExact FpMain PamMain ParFacts Approx Groups Reference Ex P_Fasterpam P_Pam P_Restart P_Approx P_Grow P_Parts P_Copies.
Open Scope nat_scope.

(** [objs]: the objects below [n], [m] times each *)
Definition repeated (n m : nat) (objs : list nat) : Prop := Permutation objs (concat (repeat (seq 0 n) m)).

Lemma repeated_lt n m objs o : repeated n m objs -> In o objs -> o < n.
Proof.
  intros hr ho. apply (Permutation_in _ hr), in_concat in ho. destruct ho as (l & hl & ho). apply repeat_spec in hl. subst l.
  apply in_seq in ho. lia.
Qed.

Lemma repeated_sum n m objs (f : nat -> Q) : repeated n m objs ->
  (sumQ f objs == inject_Z (Z.of_nat m) * sumQ f (seq 0 n))%Q.
Proof.
  intros hr. rewrite (sumQ_perm f hr). clear hr. induction m as [|m IH]; [cbn [repeat concat Z.of_nat]; change (inject_Z 0) with 0%Q; rewrite Qmult_0_l; reflexivity|].
  cbn [repeat concat]. rewrite sumQ_app, IH. rewrite Nat2Z.inj_succ, <- Z.add_1_r, inject_Z_plus. change (inject_Z 1) with 1%Q. lra.
Qed.

Section Repeated.
  Variables (v : diss) (n m : nat) (med objs meds : list nat).
  Hypothesis hr : repeated n m objs.
  Hypothesis hmap : map (fun i => nth i objs 0) meds = med.

  Lemma repeated_loss l : (tdev (restricted v objs) (length objs) l ==
    inject_Z (Z.of_nat m) * tdev v n (map (fun i => nth i objs 0%nat) l))%Q.
  Proof. rewrite restricted_tdev. apply repeated_sum. exact hr. Qed.

  Lemma repeated_optimal : swap_optimal v n med -> swap_optimal (restricted v objs) (length objs) meds.
  Proof.
    intros hopt b j hb hj. rewrite !repeated_loss, map_swap, hmap.
    assert (hb' : b < length med) by (rewrite <- hmap, map_length; exact hb).
    assert (hx : nth j objs 0 < n) by (apply (repeated_lt n m objs); [exact hr|apply nth_In; exact hj]).
    pose proof (hopt b _ hb' hx) as h.
    assert (h0 : (0 <= inject_Z (Z.of_nat m))%Q) by (change 0%Q with (inject_Z 0); rewrite <- Zle_Qle; lia).
    rewrite !(Qmult_comm (inject_Z (Z.of_nat m))). apply Qmult_le_compat_r; assumption.
  Qed.
End Repeated.

(** C103.  [meds]: for each medoid one of its copies. *)
Theorem C103_repeated {Nt Lt : Type} `{HLL : LossLaws Nt Lt} (M : Mat Nt) n D orc order med maxiter :
  diss_matrix M n D -> sizes n (length med) -> medoids n (length med) med -> 2 <= length med ->
  Permutation order (seq 0 n) -> valid_oracle orc ->
  all_swap_runs (Lt := Lt) M orc order med maxiter (fun x => exists p, x = Ok p /\ (r_iter p < maxiter ->
    forall m objs meds M' orc' order' maxiter', repeated n m objs ->
      map (fun i => nth i objs 0) meds = r_med p -> (forall i, In i meds -> i < length objs) ->
      diss_matrix M' (length objs) (restricted D objs) -> sizes (length objs) (length med) ->
      Permutation order' (seq 0 (length objs)) -> valid_oracle orc' -> 0 < maxiter' ->
      all_swap_runs (Lt := Lt) M' orc' order' meds maxiter' (stays (inject_Z (Z.of_nat m) * vL (r_loss p))%Q meds) /\
      (symmetric n (vals D) ->
        stays (inject_Z (Z.of_nat m) * vL (r_loss p))%Q meds (alternating (Lt := Lt) M' meds maxiter')))).
Proof.
  intros hd hs hm h2 hp hor. destruct (perm_order n order hp) as [hnd ho].
  assert (hk : 2 <= length med \/ symmetric n (vals D)) by auto.
  assert (G : forall p : pam_result Lt, medoids n (length med) (r_med p) ->
    swap_optimal (vals D) n (r_med p) -> (vL (r_loss p) == tdev (vals D) n (r_med p))%Q ->
    forall m objs meds M' orc' order' maxiter', repeated n m objs ->
      map (fun i => nth i objs 0) meds = r_med p -> (forall i, In i meds -> i < length objs) ->
      diss_matrix M' (length objs) (restricted D objs) -> sizes (length objs) (length med) ->
      Permutation order' (seq 0 (length objs)) -> valid_oracle orc' -> 0 < maxiter' ->
      all_swap_runs (Lt := Lt) M' orc' order' meds maxiter' (stays (inject_Z (Z.of_nat m) * vL (r_loss p))%Q meds) /\
      (symmetric n (vals D) ->
        stays (inject_Z (Z.of_nat m) * vL (r_loss p))%Q meds (alternating (Lt := Lt) M' meds maxiter'))).
  { intros p (hl & q2 & q3) hopt hlo m objs meds M' orc' order' mi hr hmap hin hd' hs' hp' hor' hmi.
    assert (hlen : length meds = length med) by (rewrite <- hl, <- hmap, map_length; reflexivity).
    rewrite <- hlen in hs', h2.
    pose proof (repeated_optimal (vals D) n m (r_med p) objs meds hr hmap hopt) as hopt'.
    pose proof (repeated_loss (vals D) n m objs hr meds) as hloss. rewrite hmap in hloss.
    change (restricted (vals D) objs) with (vals (restricted D objs)) in hopt', hloss.
    assert (hm' : medoids (length objs) (length meds) meds).
    { split; [reflexivity|]. split; [|exact hin]. apply (NoDup_map_inv (fun i => nth i objs 0)). rewrite hmap. exact q2. }
    destruct (C49_fixpoints (Lt := Lt) M' (length objs) _ orc' order' meds mi hd' hs' hm' (or_introl h2) hp' hor' hmi) as [h _].
    specialize (h hopt').
    assert (K : forall x : res (pam_result Lt), stays (tdev (vals (restricted D objs)) (length objs) meds) meds x ->
      stays (inject_Z (Z.of_nat m) * vL (r_loss p))%Q meds x).
    { intros x (r & x1 & x2 & x3 & x4 & x5). exists r. repeat split; auto. rewrite x5, hlo. exact hloss. }
    destruct h as (g1 & g2 & g3 & g4 & g5). split.
    - unfold all_swap_runs. split; [|split; [|split; [|split]]]; apply K; assumption.
    - intros hsy. apply K. apply (C50_alternating_stays (Lt := Lt) M' (length objs) _ meds mi hd' hs' hm'); auto.
      intros i j hi hj. apply hsy; apply (repeated_lt n m objs); auto; apply nth_In; assumption. }
  destruct (fasterpam_all (Lt := Lt) hd maxiter hs hm) as (r1 & e1 & h1).
  destruct (rand_fasterpam_all (Lt := Lt) hd maxiter hs hm hnd ho) as (r2 & e2 & h2').
  destruct (C13_schedule_independent (Lt := Lt) M n D orc order med maxiter hd hs hm ho hor)
    as (r2' & r3 & e2' & e3 & p1 & p0 & p2 & p3 & p4). rewrite e2 in e2'. injection e2' as <-.
  destruct (fastpam1_all (Lt := Lt) hd maxiter hs hm) as (r4 & e4 & e5 & h4).
  unfold all_swap_runs at 1. split; [|split; [|split; [|split]]].
  - exists r1. split; [exact e1|]. intros hlt. apply G; try apply h1; auto.
  - exists r2. split; [exact e2|]. intros hlt. apply G; try apply h2'; auto.
  - exists r3. split; [exact e3|]. intros hlt. assert (hlt2 : r_iter r2 < maxiter) by lia.
    apply G; rewrite <- ?p0, <- ?p1, <- ?p4; try apply h2'; auto.
  - exists r4. split; [exact e4|]. intros hlt. apply G; try apply h4; auto.
  - exists r4. split; [exact e5|]. intros hlt. apply G; try apply h4; auto.
Qed.
Print Assumptions C103_repeated.

(** the five objects of C100_before twice, in another order; medoids 4 and 1 *)
Definition C103_case := C103_repeated (Lt := Z) m_g 5 (entries rows_g) P_Pam.orc2 [3; 0; 1; 4; 2] [0; 1] 10 g_diss s52 k52
  (le_n 2) g_perm P_Pam.orc2_ok.
Definition objs_twice : list nat := [4; 3; 2; 1; 0; 0; 1; 2; 3; 4].
Example C103_objs : repeated 5 2 objs_twice.
Proof. change (Permutation ([4; 3; 2; 1; 0] ++ seq 0 5) (rev [4; 3; 2; 1; 0] ++ seq 0 5)). apply Permutation_app_tail, Permutation_rev. Qed.
Definition rows_twice : list (list Z) := Eval vm_compute in rows_with objs_twice.
Example C103_same i j : i < 10 -> j < 10 -> restricted (entries rows_g) objs_twice i j = entries rows_twice i j.
Proof. intros hi hj. do 10 (destruct i as [|i]; [do 10 (destruct j as [|j]; [reflexivity|]); lia|]). lia. Qed.
Example C103_after : fasterpam (Lt := Z) (mat_of_rows rows_twice) [9; 3] 10 = Ok (mkPR 8%Z [0; 1; 1; 1; 1; 1; 1; 1; 1; 0] 1 0 [9; 3]).
Proof. vm_compute. reflexivity. Qed.

(** Not so for the medoid silhouette: with the objects 0, 1, 2 and 100 twice, a medoid moves to the second copy of another one. *)
Definition objs_8 : list nat := [0; 1; 2; 3; 0; 1; 2; 3].
Definition rows_8 : list (list Z) := Eval vm_compute in map (fun i => map (fun j => entries rows_c4 i j) objs_8) objs_8.
Theorem C103_msc_refuted : exists (M M' : Mat Z) D (p p' : pam_result Q), diss_matrix M 4 D /\
  repeated 4 2 objs_8 /\ is_matrix M' 8 (restricted D objs_8) /\
  fastermsc M [0; 1; 3] 10 = Ok p /\ r_iter p < 10 /\ map (fun i => nth i objs_8 0) (r_med p) = r_med p /\
  fastermsc M' (r_med p) 10 = Ok p' /\ r_iter p' < 10 /\ 0 < r_swaps p' /\ (r_loss p < r_loss p')%Q.
Proof.
  exists (mat_of_rows rows_c4), (mat_of_rows rows_8), (entries rows_c4). do 2 eexists.
  split; [apply rows_diss; [lia|reflexivity]|]. split; [apply Permutation_refl|]. split.
  { split; [reflexivity|]. split; [reflexivity|]. intros x y hx hy.
    do 8 (destruct x as [|x]; [do 8 (destruct y as [|y]; [reflexivity|]); lia|]). lia. }
  split; [vm_compute; reflexivity|]. split; [simpl; lia|]. split; [reflexivity|]. split; [vm_compute; reflexivity|].
  split; [simpl; lia|]. split; [simpl; lia|]. vm_compute. reflexivity.
Qed.
Print Assumptions C103_msc_refuted.
