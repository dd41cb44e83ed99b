(** P_Consistent.v -- property C101: dissimilarities which speak even more for a clustering.  If every object comes closer to its medoid,
    and to no other object by more than that, the medoids found before stay; but not if the objects of a cluster come closer to each other
    in just any way (the consistency of Kleinberg).
    Every theorem is followed by a concrete input which meets its hypotheses. *)
From Coq Require Import ZArith QArith Lqa Lia Permutation.
From Verif Require Import Base Num M_Mat M_Util M_Fasterpam M_Pam M_Alternating M_ParFasterpam M_Msc Inst Hoare Spec SpecFacts Laws
  PamShape PamExact FpMain PamMain ParFacts Approx Groups Reference Ex P_Fasterpam P_Pam P_Restart P_Approx.
Open Scope nat_scope.

(** by how much object [o] comes closer to its medoid, from [v] to [w] *)
Definition closer (v w : diss) (med assi : list nat) (o : nat) : Q :=
  (v o (nth (nth o assi 0%nat) med 0%nat) - w o (nth (nth o assi 0%nat) med 0%nat))%Q.
(** no object moves away from its medoid, and no dissimilarity of an object falls by more than that to its medoid; those of a medoid to
    another object fall by no more than that of the other one to its medoid *)
Definition reinforces (n : nat) (v w : diss) (med assi : list nat) : Prop :=
  (forall o, o < n -> (0 <= closer v w med assi o)%Q) /\
  forall o x, o < n -> x < n ->
    (v o x - w o x <= closer v w med assi o)%Q \/ In o med /\ (v o x - w o x <= closer v w med assi x)%Q.

Section Reinforced.
  Variables (v w : diss) (n : nat) (med assi : list nat).
  Hypothesis hv : dissimilarity n v.
  Hypothesis hw : dissimilarity n w.
  Hypothesis hin : forall m, In m med -> m < n.
  Hypothesis hnear : forall o, o < n -> nearest v o med (nth o assi 0).
  Hypothesis hr : reinforces n v w med assi.

  Lemma closer_medoid m : In m med -> (closer v w med assi m <= 0)%Q.
  Proof.
    intros hm. pose proof (hin m hm) as hl. pose proof (nearest_mindist (hnear m hl)) as h.
    pose proof (mindist_le v m med m hm) as h1. pose proof (proj1 hv m hl) as h2. unfold closer.
    assert (h3 : (0 <= w m (nth (nth m assi 0%nat) med 0%nat))%Q).
    { apply (proj2 hw); [exact hl|]. apply hin, nth_In, (hnear m hl). }
    lra.
  Qed.

  Lemma reinforced_near o : o < n -> nearest w o med (nth o assi 0).
  Proof.
    intros ho. destruct (hnear o ho) as [h1 h2]. split; [exact h1|]. intros c hc. specialize (h2 c hc).
    assert (hm : In (nth c med 0) med) by (apply nth_In; exact hc).
    pose proof (proj1 hr o ho) as h0. pose proof (closer_medoid _ hm) as h3.
    destruct (proj2 hr o (nth c med 0) ho (hin _ hm)) as [h|[_ h]]; unfold closer in h, h0; [lra|].
    fold (closer v w med assi (nth c med 0)) in h. lra.
  Qed.

  Lemma reinforced_loss : (tdev w n med == sumQ (fun o => w o (nth (nth o assi 0%nat) med 0%nat)) (seq 0 n))%Q.
  Proof. unfold tdev. apply sumQ_ext. intros o ho. apply in_seq in ho. apply nearest_mindist, reinforced_near. lia. Qed.

  Lemma in_swap_or b j m : In m (swap med b j) -> m = j \/ In m med.
  Proof.
    unfold swap. intros h. apply in_app_or in h. destruct h as [h|[h|h]]; [right|left; auto|right].
    - rewrite <- (firstn_skipn b med). apply in_or_app. auto.
    - rewrite <- (firstn_skipn (S b) med). apply in_or_app. auto.
  Qed.

  Lemma in_med_swap b j o : b < length med -> In o med -> o <> nth b med 0 -> In o (swap med b j).
  Proof.
    intros hb ho hne. destruct (In_nth med o 0 ho) as (c & hc & <-). apply in_swap_old; auto. intros ->. auto.
  Qed.

  Lemma reinforced_optimal : swap_optimal v n med -> swap_optimal w n med.
  Proof.
    intros hopt b j hb hj. pose proof (hopt b j hb hj) as h. unfold tdev in *.
    set (g := closer v w med assi) in *. set (mb := nth b med 0).
    assert (hmb : mb < n) by (apply hin, nth_In; exact hb).
    assert (h1 : (sumQ (fun o => mindist w o med) (seq 0 n) == sumQ (fun o => mindist v o med - g o)%Q (seq 0 n))%Q).
    { apply sumQ_ext. intros o ho. apply in_seq in ho. rewrite (nearest_mindist (reinforced_near o ltac:(lia))).
      rewrite (nearest_mindist (hnear o ltac:(lia))). unfold g, closer. lra. }
    assert (hg : forall o, o < n -> (0 <= g o)%Q) by apply hr.
    assert (h2 : (sumQ (fun o => (mindist v o (swap med b j) - g o) + ((if o =? j then g j else 0) - (if o =? mb then g j else 0)))%Q (seq 0 n)
      <= sumQ (fun o => mindist w o (swap med b j)) (seq 0 n))%Q).
    { apply sumQ_le. intros o ho. apply in_seq in ho. assert (hon : o < n) by lia. pose proof (hg o hon) as g0. pose proof (hg j hj) as gj.
      assert (hself : In o (swap med b j) -> (mindist v o (swap med b j) == 0 /\ mindist w o (swap med b j) == 0)%Q).
      { intros hi. split; eapply mindist_self; eauto; intros m hm; apply (in_swap_lt n med b j m hin hj hm). }
      destruct (Nat.eqb_spec o j) as [->|hne].
      - destruct (hself (in_swap_new med b j)) as [q1 q2]. destruct (j =? mb); lra.
      - destruct (mindist_in w o (swap_nonempty med b j)) as (m & hm & e).
        pose proof (mindist_le v o (swap med b j) m hm) as h3.
        pose proof (in_swap_lt n med b j m hin hj hm) as hmn.
        destruct (proj2 hr o m hon hmn) as [h4|[h5 h4]]; fold g in h4; [destruct (o =? mb); lra|].
        destruct (Nat.eqb_spec o mb) as [->|hnb].
        + destruct (in_swap_or b j m hm) as [->|hmm]; [lra|]. pose proof (closer_medoid m hmm) as h6. fold g in h6. lra.
        + destruct (hself (in_med_swap b j o hb h5 hnb)) as [q1 q2]. lra. }
    rewrite sumQ_plus, !sumQ_minus in h2. rewrite sumQ_minus in h1.
    rewrite (sumQ_single (g j) hj), (sumQ_single (g j) hmb) in h2. lra.
  Qed.
End Reinforced.

(** C101.  [M']: the matrix of the new dissimilarities.  The algorithms applied to it may be different ones, with other orders and
    schedules. *)
Theorem C101_reinforced {Nt Lt : Type} `{HLL : LossLaws Nt Lt} (M : Mat Nt) n D orc order med maxiter :
  diss_matrix M n D -> sizes n (length med) -> medoids n (length med) med -> 2 <= length med ->
  Permutation order (seq 0 n) -> valid_oracle orc ->
  all_swap_runs (Lt := Lt) M orc order med maxiter (fun m => exists p, m = Ok p /\ (r_iter p < maxiter ->
    forall D' M' orc' order' maxiter', diss_matrix M' n D' -> reinforces n (vals D) (vals D') (r_med p) (r_assi p) ->
      Permutation order' (seq 0 n) -> valid_oracle orc' -> 0 < maxiter' ->
      all_swap_runs (Lt := Lt) M' orc' order' (r_med p) maxiter'
        (stays (sumQ (fun o => vals D' o (nth (nth o (r_assi p) 0%nat) (r_med p) 0%nat)) (seq 0 n)) (r_med p)) /\
      (symmetric n (vals D') ->
        stays (sumQ (fun o => vals D' o (nth (nth o (r_assi p) 0%nat) (r_med p) 0%nat)) (seq 0 n)) (r_med p)
          (alternating (Lt := Lt) M' (r_med p) maxiter')))).
Proof.
  intros hd hs hm h2 hp hor. destruct (perm_order n order hp) as [hnd ho].
  assert (hk : 2 <= length med \/ symmetric n (vals D)) by auto.
  assert (G : forall p : pam_result Lt, medoids n (length med) (r_med p) ->
    (forall o, o < n -> nearest (vals D) o (r_med p) (nth o (r_assi p) 0)) -> swap_optimal (vals D) n (r_med p) ->
    forall D' M' orc' order' maxiter', diss_matrix M' n D' -> reinforces n (vals D) (vals D') (r_med p) (r_assi p) ->
      Permutation order' (seq 0 n) -> valid_oracle orc' -> 0 < maxiter' ->
      all_swap_runs (Lt := Lt) M' orc' order' (r_med p) maxiter'
        (stays (sumQ (fun o => vals D' o (nth (nth o (r_assi p) 0%nat) (r_med p) 0%nat)) (seq 0 n)) (r_med p)) /\
      (symmetric n (vals D') ->
        stays (sumQ (fun o => vals D' o (nth (nth o (r_assi p) 0%nat) (r_med p) 0%nat)) (seq 0 n)) (r_med p)
          (alternating (Lt := Lt) M' (r_med p) maxiter'))).
  { intros p (hl & q2 & q3) hnp hopt D' M' orc' order' mi hd' hr hp' hor' hmi. rewrite <- hl in hs, h2.
    pose proof (reinforced_optimal (vals D) (vals D') n (r_med p) (r_assi p) (proj2 (proj1 (emb_vals hd))) (proj2 (proj1 (emb_vals hd'))) q3 hnp hr hopt) as hopt'.
    pose proof (reinforced_loss (vals D) (vals D') n (r_med p) (r_assi p) (proj2 (proj1 (emb_vals hd))) (proj2 (proj1 (emb_vals hd'))) q3 hnp hr) as hloss.
    assert (hm' : medoids n (length (r_med p)) (r_med p)) by (split; auto).
    destruct (C49_fixpoints (Lt := Lt) M' n D' orc' order' (r_med p) mi hd' hs hm' (or_introl h2) hp' hor' hmi) as [h _].
    specialize (h hopt').
    assert (K : forall m : res (pam_result Lt), stays (tdev (vals D') n (r_med p)) (r_med p) m ->
      stays (sumQ (fun o => vals D' o (nth (nth o (r_assi p) 0%nat) (r_med p) 0%nat)) (seq 0 n)) (r_med p) m).
    { intros m (r & x1 & x2 & x3 & x4 & x5). exists r. repeat split; auto. rewrite x5. exact hloss. }
    destruct h as (g1 & g2 & g3 & g4 & g5). split.
    - unfold all_swap_runs. split; [|split; [|split; [|split]]]; apply K; assumption.
    - intros hsy. apply K. apply (C50_alternating_stays (Lt := Lt) M' n D' (r_med p) mi hd' hs hm' hsy hopt' hmi). }
  destruct (fasterpam_all (Lt := Lt) hd maxiter hs hm) as (r1 & e1 & h1).
  destruct (rand_fasterpam_all (Lt := Lt) hd maxiter hs hm hnd ho) as (r2 & e2 & h2').
  destruct (C13_schedule_independent (Lt := Lt) M n D orc order med maxiter hd hs hm ho hor)
    as (r2' & r3 & e2' & e3 & p1 & p0 & p2 & p3 & p4). rewrite e2 in e2'. injection e2' as <-.
  destruct (fastpam1_all (Lt := Lt) hd maxiter hs hm) as (r4 & e4 & e5 & h4).
  unfold all_swap_runs at 1. split; [|split; [|split; [|split]]].
  - exists r1. split; [exact e1|]. intros hlt. apply G; try apply h1; auto.
  - exists r2. split; [exact e2|]. intros hlt. apply G; try apply h2'; auto.
  - exists r3. split; [exact e3|]. intros hlt. assert (hlt2 : r_iter r2 < maxiter) by lia.
    apply G; rewrite <- ?p0, <- ?p1, <- ?p4; try apply h2'; auto.
  - exists r4. split; [exact e4|]. intros hlt. apply G; try apply h4; auto.
  - exists r4. split; [exact e5|]. intros hlt. apply G; try apply h4; auto.
Qed.
Print Assumptions C101_reinforced.

(** three objects around object 0, and two further ones; [rows_k1]: the three come closer to object 0, and to each other, by 1, and
    objects 0 and 4 move apart *)
Definition rows_k0 : list (list Z) :=
  [[0; 2; 2; 2; 50; 50]; [2; 0; 4; 4; 50; 50]; [2; 4; 0; 4; 50; 50]; [2; 4; 4; 0; 50; 50]; [50; 50; 50; 50; 0; 1]; [50; 50; 50; 50; 1; 0]]%Z.
Definition rows_k1 : list (list Z) :=
  [[0; 1; 1; 1; 55; 50]; [1; 0; 3; 3; 50; 50]; [1; 3; 0; 3; 50; 50]; [1; 3; 3; 0; 50; 50]; [55; 50; 50; 50; 0; 1]; [50; 50; 50; 50; 1; 0]]%Z.
(** [rows_k2]: the objects 1, 2, 3 come closer to each other only *)
Definition rows_k2 : list (list Z) :=
  [[0; 2; 2; 2; 50; 50]; [2; 0; 1; 1; 50; 50]; [2; 1; 0; 1; 50; 50]; [2; 1; 1; 0; 50; 50]; [50; 50; 50; 50; 0; 1]; [50; 50; 50; 50; 1; 0]]%Z.
Lemma k0_diss : diss_matrix (mat_of_rows rows_k0) 6 (entries rows_k0). Proof. apply rows_diss; [lia|reflexivity]. Qed.
Lemma k1_diss : diss_matrix (mat_of_rows rows_k1) 6 (entries rows_k1). Proof. apply rows_diss; [lia|reflexivity]. Qed.
Lemma k2_diss : diss_matrix (mat_of_rows rows_k2) 6 (entries rows_k2). Proof. apply rows_diss; [lia|reflexivity]. Qed.

Lemma s62 : sizes 6 (length [1; 2]). Proof. repeat split; simpl; lia. Qed.
Lemma k62 : medoids 6 (length [1; 2]) [1; 2].
Proof. split; [reflexivity|]. split; [repeat constructor; simpl; lia|]. simpl. lia. Qed.
Lemma perm6 : Permutation [3; 0; 1; 5; 4; 2] (seq 0 6).
Proof. apply NoDup_Permutation; [repeat constructor; simpl; lia|apply seq_NoDup|]. intros x. rewrite in_seq. simpl. lia. Qed.
Definition C101_case := C101_reinforced (Lt := Z) (mat_of_rows rows_k0) 6 (entries rows_k0) P_Pam.orc2 [3; 0; 1; 5; 4; 2] [1; 2] 10 k0_diss
  s62 k62 (le_n 2) perm6 P_Pam.orc2_ok.
Example C101_before : fasterpam (Lt := Z) (mat_of_rows rows_k0) [1; 2] 10 = Ok (mkPR 7%Z [0; 0; 0; 0; 1; 1] 2 2 [0; 4]).
Proof. vm_compute. reflexivity. Qed.
Example C101_closer : reinforces 6 (vals (entries rows_k0)) (vals (entries rows_k1)) [0; 4] [0; 0; 0; 0; 1; 1].
Proof.
  split.
  - intros o ho. do 6 (destruct o as [|o]; [vm_compute; intros hh; discriminate hh|]). lia.
  - intros o x ho hx. do 6 (destruct o as [|o]; [do 6 (destruct x as [|x];
      [first [left; vm_compute; intros hh; discriminate hh|right; split; [simpl; tauto|vm_compute; intros hh; discriminate hh]]|]); lia|]). lia.
Qed.
Example C101_after : fasterpam (Lt := Z) (mat_of_rows rows_k1) [0; 4] 10 = Ok (mkPR 4%Z [0; 0; 0; 0; 1; 1] 1 0 [0; 4]).
Proof. vm_compute. reflexivity. Qed.

(** Consistency in the sense of Kleinberg fails: if only the objects within a cluster come closer to each other, in any way, the medoids
    may change. *)
Theorem C101_within_clusters_refuted : exists (M M' : Mat Z) D D' (p p' : pam_result Z), diss_matrix M 6 D /\ diss_matrix M' 6 D' /\
  fasterpam M [1; 2] 10 = Ok p /\ r_iter p < 10 /\
  (forall x y, x < 6 -> y < 6 ->
    (if nth x (r_assi p) 0 =? nth y (r_assi p) 0 then (D' x y <= D x y)%Z else D' x y = D x y)) /\
  fasterpam M' (r_med p) 10 = Ok p' /\ r_iter p' < 10 /\ r_swaps p' = 1 /\ ~ Permutation (r_med p) (r_med p').
Proof.
  exists (mat_of_rows rows_k0), (mat_of_rows rows_k2), (entries rows_k0), (entries rows_k2). do 2 eexists.
  split; [apply k0_diss|]. split; [apply k2_diss|]. split; [vm_compute; reflexivity|]. split; [simpl; lia|]. split.
  { intros x y hx hy.
    do 6 (destruct x as [|x]; [do 6 (destruct y as [|y]; [vm_compute; first [reflexivity|intros hh; discriminate hh]|]); lia|]). lia. }
  split; [vm_compute; reflexivity|]. split; [simpl; lia|]. split; [reflexivity|].
  intros h. apply (Permutation_in 0) in h; [|simpl; auto]. simpl in h. lia.
Qed.
Print Assumptions C101_within_clusters_refuted.

(** Nor does the medoid silhouette keep its medoids: here only the two medoids themselves move apart. *)
Definition rows_k3 : list (list Z) := [[0; 1; 3; 6]; [1; 0; 4; 5]; [3; 4; 0; 2]; [6; 5; 2; 0]]%Z.
Definition rows_k4 : list (list Z) := [[0; 1; 3; 6]; [1; 0; 4; 7]; [3; 4; 0; 2]; [6; 7; 2; 0]]%Z.
Theorem C101_msc_refuted : exists (M M' : Mat Z) D D' (p p' : pam_result Q), diss_matrix M 4 D /\ diss_matrix M' 4 D' /\
  fastermsc M [1; 3] 10 = Ok p /\ r_iter p < 10 /\ reinforces 4 (vals D) (vals D') (r_med p) (r_assi p) /\
  fastermsc M' (r_med p) 10 = Ok p' /\ r_iter p' < 10 /\ 0 < r_swaps p' /\ ~ Permutation (r_med p) (r_med p').
Proof.
  exists (mat_of_rows rows_k3), (mat_of_rows rows_k4), (entries rows_k3), (entries rows_k4). do 2 eexists.
  split; [apply rows_diss; [lia|reflexivity]|]. split; [apply rows_diss; [lia|reflexivity]|].
  split; [vm_compute; reflexivity|]. split; [simpl; lia|]. split.
  { split.
    - intros o ho. do 4 (destruct o as [|o]; [vm_compute; intros hh; discriminate hh|]). lia.
    - intros o x ho hx. left.
      do 4 (destruct o as [|o]; [do 4 (destruct x as [|x]; [vm_compute; intros hh; discriminate hh|]); lia|]). lia. }
  split; [vm_compute; reflexivity|]. split; [simpl; lia|]. split; [simpl; lia|].
  intros h. apply (Permutation_in 3) in h; [|simpl; auto]. simpl in h. lia.
Qed.
Print Assumptions C101_msc_refuted.
