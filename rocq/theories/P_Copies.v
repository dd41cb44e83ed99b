(** P_Copies.v -- property C100: copies of the medoids.  Adding objects which are copies of returned medoids changes nothing: from these
    medoids no swap algorithm makes a swap, and the loss stays.  Copies of other objects may change the result.
    Every theorem is followed by a concrete input which meets its hypotheses. *)
From Coq Require Import ZArith QArith Lqa Lia Permutation.
From Verif Require Import Base Num M_Mat M_Util M_Fasterpam M_Pam M_Alternating M_ParFasterpam M_Msc Inst Hoare Spec SpecFacts Laws
  PamShape PamExact FpMain PamMain ParFacts Approx Groups Reference Ex P_Fasterpam P_Pam P_Restart P_Approx P_Grow P_Parts.
Open Scope nat_scope.

(** [restricted D (seq 0 n ++ copies)]: the old objects, followed by copies of some of them *)
Section Copies.
  Variables (v : diss) (n : nat) (med copies : list nat).
  Hypothesis hv : dissimilarity n v.
  Hypothesis hm : medoids n (length med) med.
  Hypothesis hc : forall c, In c copies -> In c med.
  Let objs := seq 0 n ++ copies.

  Lemma old_objects l : (forall m, In m l -> m < n) -> map (fun i => nth i objs 0) l = l.
  Proof.
    intros h. rewrite <- (map_id l) at 2. apply map_ext_in. intros m hin. specialize (h m hin). unfold objs.
    rewrite app_nth1 by (rewrite seq_length; exact h). apply seq_nth. exact h.
  Qed.

  Lemma copies_loss : (tdev (restricted v objs) (length objs) med == tdev v n med)%Q.
  Proof.
    destruct hm as (_ & _ & hin). rewrite restricted_tdev, old_objects by exact hin. unfold objs, tdev. rewrite sumQ_app.
    assert (h0 : (sumQ (fun o => mindist v o med) copies == sumQ (fun _ => 0%Q) copies)%Q).
    { apply sumQ_ext. intros x hx. apply mindist_self with (n := n); auto. }
    rewrite h0, sumQ_zero. lra.
  Qed.

  Lemma copies_optimal : swap_optimal v n med -> swap_optimal (restricted v objs) (length objs) med.
  Proof.
    intros hopt b j hb hj. destruct hm as (_ & _ & hin). rewrite copies_loss, restricted_tdev, map_swap, old_objects by exact hin.
    assert (hx : nth j objs 0 < n).
    { assert (h : In (nth j objs 0) objs) by (apply nth_In; exact hj). unfold objs at 2 in h. apply in_app_or in h as [h|h].
      - apply in_seq in h. lia.
      - apply hin, hc. exact h. }
    unfold objs at 2. rewrite sumQ_app. pose proof (hopt b (nth j objs 0) hb hx) as h.
    assert (h0 : (0 <= sumQ (fun o => mindist v o (swap med b (nth j objs 0%nat))) copies)%Q).
    { apply sumQ_nonneg. intros o ho. apply mindist_nonneg with (n := n); auto. intros m hmm.
      apply in_swap_lt with (n := n) in hmm; auto. }
    unfold tdev in *. lra.
  Qed.
End Copies.

(** C100.  [M']: any matrix with the copies added.  The algorithms applied to it may be different ones, with other orders and
    schedules. *)
Theorem C100_copies_of_medoids {Nt Lt : Type} `{HLL : LossLaws Nt Lt} (M : Mat Nt) n D orc order med maxiter :
  diss_matrix M n D -> sizes n (length med) -> medoids n (length med) med -> 2 <= length med ->
  Permutation order (seq 0 n) -> valid_oracle orc ->
  all_swap_runs (Lt := Lt) M orc order med maxiter (fun m => exists p, m = Ok p /\ (r_iter p < maxiter ->
    forall copies M' orc' order' maxiter', (forall c, In c copies -> In c (r_med p)) -> let n' := n + length copies in
      diss_matrix M' n' (restricted D (seq 0 n ++ copies)) -> sizes n' (length med) ->
      Permutation order' (seq 0 n') -> valid_oracle orc' -> 0 < maxiter' ->
      all_swap_runs (Lt := Lt) M' orc' order' (r_med p) maxiter' (stays (vL (r_loss p)) (r_med p)) /\
      (symmetric n (vals D) -> stays (vL (r_loss p)) (r_med p) (alternating (Lt := Lt) M' (r_med p) maxiter')))).
Proof.
  intros hd hs hm h2 hp hor. destruct (perm_order n order hp) as [hnd ho]. pose proof (proj2 (proj1 (emb_vals hd))) as hv.
  assert (hk : 2 <= length med \/ symmetric n (vals D)) by auto.
  assert (G : forall p : pam_result Lt, medoids n (length med) (r_med p) ->
    swap_optimal (vals D) n (r_med p) -> (vL (r_loss p) == tdev (vals D) n (r_med p))%Q ->
    forall copies M' orc' order' maxiter', (forall c, In c copies -> In c (r_med p)) -> let n' := n + length copies in
      diss_matrix M' n' (restricted D (seq 0 n ++ copies)) -> sizes n' (length med) ->
      Permutation order' (seq 0 n') -> valid_oracle orc' -> 0 < maxiter' ->
      all_swap_runs (Lt := Lt) M' orc' order' (r_med p) maxiter' (stays (vL (r_loss p)) (r_med p)) /\
      (symmetric n (vals D) -> stays (vL (r_loss p)) (r_med p) (alternating (Lt := Lt) M' (r_med p) maxiter'))).
  { intros p hmp hopt hlo copies M' orc' order' mi hc n' hd' hs' hp' hor' hmi.
    destruct hmp as (hl & q2 & q3). rewrite <- hl in hs', h2.
    assert (hmp : medoids n (length (r_med p)) (r_med p)) by (split; auto).
    assert (hlen : length (seq 0 n ++ copies) = n') by (rewrite app_length, seq_length; reflexivity).
    pose proof (copies_optimal (vals D) n (r_med p) copies hv hmp hc hopt) as hopt'.
    pose proof (copies_loss (vals D) n (r_med p) copies hv hmp hc) as hloss. rewrite hlen in hopt', hloss.
    change (restricted (vals D) (seq 0 n ++ copies)) with (vals (restricted D (seq 0 n ++ copies))) in hopt', hloss.
    assert (hm' : medoids n' (length (r_med p)) (r_med p)).
    { split; [reflexivity|]. split; [exact q2|]. intros m hin. specialize (q3 m hin). unfold n'. lia. }
    destruct (C49_fixpoints (Lt := Lt) M' n' _ orc' order' (r_med p) mi hd' hs' hm' (or_introl h2) hp' hor' hmi) as [h _].
    specialize (h hopt').
    assert (K : forall m : res (pam_result Lt),
      stays (tdev (vals (restricted D (seq 0 n ++ copies))) n' (r_med p)) (r_med p) m -> stays (vL (r_loss p)) (r_med p) m).
    { intros m (r & x1 & x2 & x3 & x4 & x5). exists r. repeat split; auto. rewrite x5, hlo. exact hloss. }
    destruct h as (g1 & g2 & g3 & g4 & g5). split.
    - unfold all_swap_runs. split; [|split; [|split; [|split]]]; apply K; assumption.
    - intros hsy. apply K. apply (C50_alternating_stays (Lt := Lt) M' n' _ (r_med p) mi hd' hs' hm'); auto.
      assert (hob : forall i, i < n' -> nth i (seq 0 n ++ copies) 0 < n).
      { intros i hi. rewrite <- hlen in hi. destruct (in_app_or _ _ _ (nth_In _ 0 hi)) as [h|h]; [apply in_seq in h; lia|].
        apply q3, hc, h. }
      intros i j hi hj. apply hsy; apply hob; assumption. }
  destruct (fasterpam_all (Lt := Lt) hd maxiter hs hm) as (r1 & e1 & h1).
  destruct (rand_fasterpam_all (Lt := Lt) hd maxiter hs hm hnd ho) as (r2 & e2 & h2').
  destruct (C13_schedule_independent (Lt := Lt) M n D orc order med maxiter hd hs hm ho hor)
    as (r2' & r3 & e2' & e3 & p1 & p0 & p2 & p3 & p4). rewrite e2 in e2'. injection e2' as <-.
  destruct (fastpam1_all (Lt := Lt) hd maxiter hs hm) as (r4 & e4 & e5 & h4).
  unfold all_swap_runs at 1. split; [|split; [|split; [|split]]].
  - exists r1. split; [exact e1|]. intros hlt. apply G; try apply h1; auto.
  - exists r2. split; [exact e2|]. intros hlt. apply G; try apply h2'; auto.
  - exists r3. split; [exact e3|]. intros hlt. assert (hlt2 : r_iter r2 < maxiter) by lia.
    apply G; rewrite <- ?p0, <- ?p1, <- ?p4; try apply h2'; auto.
  - exists r4. split; [exact e4|]. intros hlt. apply G; try apply h4; auto.
  - exists r4. split; [exact e5|]. intros hlt. apply G; try apply h4; auto.
Qed.
Print Assumptions C100_copies_of_medoids.
(** five objects on a line, and two copies of the medoids *)
Definition C100_case := C100_copies_of_medoids (Lt := Z) m_g 5 (entries rows_g) P_Pam.orc2 [3; 0; 1; 4; 2] [0; 1] 10 g_diss s52 k52
  (le_n 2) g_perm P_Pam.orc2_ok.
Example C100_before : fasterpam (Lt := Z) m_g [0; 1] 10 = Ok (mkPR 4%Z [1; 1; 1; 1; 0] 2 3 [4; 1]).
Proof. vm_compute. reflexivity. Qed.
Definition rows_with (objs : list nat) : list (list Z) := map (fun i => map (fun j => entries rows_g i j) objs) objs.
Definition rows_c7 : list (list Z) := Eval vm_compute in rows_with (seq 0 5 ++ [4; 1]).
Lemma c7_same i j : i < 7 -> j < 7 -> restricted (entries rows_g) (seq 0 5 ++ [4; 1]) i j = entries rows_c7 i j.
Proof. intros hi hj. do 7 (destruct i as [|i]; [do 7 (destruct j as [|j]; [reflexivity|]); lia|]). lia. Qed.
Lemma c7_diss : diss_matrix (mat_of_rows rows_c7) 7 (restricted (entries rows_g) (seq 0 5 ++ [4; 1])).
Proof.
  assert (h : diss_matrix (mat_of_rows rows_c7) 7 (entries rows_c7)) by (apply rows_diss; [lia|reflexivity]).
  destruct h as ((a1 & a2 & a3) & a4 & a5). split; [split; [exact a1|split; [exact a2|]]|split].
  - intros x y hx hy. rewrite (c7_same x y hx hy). apply a3; assumption.
  - intros x hx. rewrite (c7_same x x hx hx). apply a4; assumption.
  - intros x y hx hy. unfold vals. rewrite (c7_same x y hx hy). apply a5; assumption.
Qed.
Example C100_after : fasterpam (Lt := Z) (mat_of_rows rows_c7) [4; 1] 10 = Ok (mkPR 4%Z [1; 1; 1; 1; 0; 0; 1] 1 0 [4; 1]).
Proof. vm_compute. reflexivity. Qed.

(** Copies of an object which is no medoid can make it one. *)
Definition rows_c8 : list (list Z) := Eval vm_compute in rows_with (seq 0 5 ++ [0; 0; 0]).
Theorem C100_other_copies_refuted : exists (M M' : Mat Z) D (p p' : pam_result Z), diss_matrix M 5 D /\
  is_matrix M' 8 (restricted D (seq 0 5 ++ [0; 0; 0])) /\
  fasterpam M [0; 1] 10 = Ok p /\ r_iter p < 10 /\ ~ In 0 (r_med p) /\
  fasterpam M' (r_med p) 10 = Ok p' /\ r_iter p' < 10 /\ In 0 (r_med p').
Proof.
  exists m_g, (mat_of_rows rows_c8), (entries rows_g). do 2 eexists. split; [apply g_diss|]. split.
  { split; [reflexivity|]. split; [reflexivity|]. intros x y hx hy.
    do 8 (destruct x as [|x]; [do 8 (destruct y as [|y]; [reflexivity|]); lia|]). lia. }
  split; [vm_compute; reflexivity|]. split; [simpl; lia|]. split; [simpl; lia|]. split; [vm_compute; reflexivity|].
  split; [simpl; lia|]. simpl. auto.
Qed.
Print Assumptions C100_other_copies_refuted.

(** For the medoid silhouette even a copy of a medoid matters: a medoid which only disturbs is moved to the copy, where it does no harm
    (objects at 0, 1, 2, 100 and a copy of the last one). *)
Definition rows_c4 : list (list Z) := [[0; 1; 2; 100]; [1; 0; 1; 99]; [2; 1; 0; 98]; [100; 99; 98; 0]]%Z.
Definition rows_c5 : list (list Z) :=
  [[0; 1; 2; 100; 100]; [1; 0; 1; 99; 99]; [2; 1; 0; 98; 98]; [100; 99; 98; 0; 0]; [100; 99; 98; 0; 0]]%Z.
Theorem C100_msc_refuted : exists (M M' : Mat Z) D (p p' : pam_result Q), diss_matrix M 4 D /\
  is_matrix M' 5 (restricted D (seq 0 4 ++ [3])) /\
  fastermsc M [0; 1; 3] 10 = Ok p /\ r_iter p < 10 /\ In 3 (r_med p) /\
  fastermsc M' (r_med p) 10 = Ok p' /\ r_iter p' < 10 /\ r_swaps p' = 1 /\ In 3 (r_med p') /\ In 4 (r_med p') /\
  (r_loss p < r_loss p')%Q.
Proof.
  exists (mat_of_rows rows_c4), (mat_of_rows rows_c5), (entries rows_c4). do 2 eexists.
  split; [apply rows_diss; [lia|reflexivity]|]. split.
  { split; [reflexivity|]. split; [reflexivity|]. intros x y hx hy.
    do 5 (destruct x as [|x]; [do 5 (destruct y as [|y]; [reflexivity|]); lia|]). lia. }
  split; [vm_compute; reflexivity|]. split; [simpl; lia|]. split; [simpl; auto|]. split; [vm_compute; reflexivity|].
  split; [simpl; lia|]. split; [reflexivity|]. split; [simpl; auto|]. split; [simpl; auto|]. vm_compute. reflexivity.
Qed.
Print Assumptions C100_msc_refuted.
