(** P_Parts.v -- property C99: a part of the clusters on its own.  The clusters which a swap algorithm found cannot be improved by
    clustering the objects of some of them again.
    Every theorem is followed by a concrete input which meets its hypotheses. *)
From Coq Require Import ZArith QArith Lqa Lia Permutation.
From Verif Require Import Base Num M_Mat M_Util M_Fasterpam M_Pam M_Alternating M_ParFasterpam M_Msc Inst Hoare Spec SpecFacts Laws
  PamShape PamExact FpMain PamMain ParFacts Approx Groups Reference Ex P_Fasterpam P_Pam P_Restart P_Approx P_Grow.
Open Scope nat_scope.

(** [cs]: some of the clusters; [objs]: their objects, in any order; [meds]: the places of their medoids in [objs] *)
Record part (n : nat) (med assi cs objs meds : list nat) : Prop := {
  pt_clusters : NoDup cs /\ forall c, In c cs -> c < length med;
  pt_objects : NoDup objs /\ forall o, In o objs <-> o < n /\ In (nth o assi 0) cs;
  pt_medoids : map (fun i => nth i objs 0) meds = map (fun c => nth c med 0) cs /\ forall i, In i meds -> i < length objs
}.
Arguments pt_clusters {n med assi cs objs meds}.
Arguments pt_objects {n med assi cs objs meds}.
Arguments pt_medoids {n med assi cs objs meds}.
(** the dissimilarities of these objects *)
Definition restricted {A} (D : nat -> nat -> A) (objs : list nat) : nat -> nat -> A := fun i j => D (nth i objs 0) (nth j objs 0).

Lemma map_swap (f : nat -> nat) med b j : map f (swap med b j) = swap (map f med) b (f j).
Proof. unfold swap. rewrite map_app, firstn_map. cbn [map]. rewrite skipn_map. reflexivity. Qed.

Lemma restricted_mindist (v : diss) objs i meds :
  mindist (restricted v objs) i meds = mindist v (nth i objs 0) (map (fun i => nth i objs 0) meds).
Proof. unfold mindist, restricted. rewrite map_map. reflexivity. Qed.

Lemma restricted_tdev (v : diss) objs meds :
  (tdev (restricted v objs) (length objs) meds == sumQ (fun o => mindist v o (map (fun i => nth i objs 0%nat) meds)) objs)%Q.
Proof.
  unfold tdev. symmetry. apply sumQ_index. intros i x hi. rewrite restricted_mindist.
  rewrite (nth_error_nth objs i 0%nat hi). reflexivity.
Qed.

Section Part.
  Variables (v : diss) (n : nat) (med assi cs objs meds : list nat).
  Hypothesis hnear : forall o, o < n -> nearest v o med (nth o assi 0).
  Hypothesis hp : part n med assi cs objs meds.
  Let medS := map (fun c => nth c med 0) cs.

  Lemma part_near o : In o objs -> (mindist v o medS == mindist v o med)%Q.
  Proof.
    intros ho. destruct (pt_objects hp) as [_ hob]. apply hob in ho as [ho hc]. pose proof (nearest_mindist (hnear o ho)) as e.
    assert (hin : In (nth (nth o assi 0) med 0) medS) by (apply (in_map (fun c => nth c med 0)) in hc; exact hc).
    pose proof (mindist_le v o medS _ hin) as h1.
    assert (h2 : (mindist v o med <= mindist v o medS)%Q).
    { apply mindist_incl; [intros h0; rewrite h0 in hin; destruct hin|]. intros m hm. unfold medS in hm. apply in_map_iff in hm as (c & <- & hc').
      apply nth_In, (pt_clusters hp). exact hc'. }
    lra.
  Qed.

  Lemma part_loss : (tdev (restricted v objs) (length objs) meds == sumQ (fun o => mindist v o med) objs)%Q.
  Proof.
    rewrite restricted_tdev, (proj1 (pt_medoids hp)). apply sumQ_ext. intros o ho. apply part_near. exact ho.
  Qed.

  Lemma part_optimal : swap_optimal v n med -> swap_optimal (restricted v objs) (length objs) meds.
  Proof.
    intros hopt b j hb hj. rewrite part_loss, restricted_tdev, map_swap, (proj1 (pt_medoids hp)). fold medS.
    destruct (pt_objects hp) as [hnd hob]. destruct (pt_clusters hp) as [hndc hcs].
    assert (hlen : length meds = length cs).
    { pose proof (f_equal (@length nat) (proj1 (pt_medoids hp))) as h. rewrite !map_length in h. exact h. }
    set (x := nth j objs 0). set (c := nth b cs 0).
    assert (hx : x < n) by (apply hob, nth_In; exact hj).
    assert (hbc : b < length cs) by lia. assert (hcin : In c cs) by (apply nth_In; exact hbc).
    pose proof (hopt c x (hcs c hcin) hx) as h.
    set (rest := filter (fun o => if in_dec Nat.eq_dec o objs then false else true) (seq 0 n)).
    assert (hrest : forall o, In o rest <-> o < n /\ ~ In o objs).
    { intros o. unfold rest. rewrite filter_In, in_seq. destruct (in_dec Nat.eq_dec o objs); intuition; try lia; discriminate. }
    assert (hperm : Permutation (objs ++ rest) (seq 0 n)).
    { apply NoDup_Permutation; [|apply seq_NoDup|].
      - apply NoDup_app_intro; [exact hnd|apply NoDup_filter, seq_NoDup|]. intros o ho ho'. apply hrest in ho'. tauto.
      - intros o. rewrite in_app_iff, hrest, in_seq. pose proof (proj1 (hob o)) as h1. destruct (in_dec Nat.eq_dec o objs); intuition lia. }
    unfold tdev in h. rewrite <- !(sumQ_perm _ hperm), !sumQ_app in h.
    assert (h1 : (sumQ (fun o => mindist v o (swap med c x)) rest <= sumQ (fun o => mindist v o med) rest)%Q).
    { apply sumQ_le. intros o ho. apply hrest in ho as [ho hno]. pose proof (hnear o ho) as hne. rewrite (nearest_mindist hne).
      apply mindist_le. apply in_swap_old; [apply hcs; exact hcin|apply hne|].
      intros e. apply hno, hob. split; [exact ho|]. rewrite e. exact hcin. }
    assert (h2 : (sumQ (fun o => mindist v o (swap med c x)) objs <= sumQ (fun o => mindist v o (swap medS b x)) objs)%Q).
    { apply sumQ_le. intros o ho. apply mindist_incl; [apply swap_nonempty|]. intros m hm.
      assert (hbS : b < length medS) by (unfold medS; rewrite map_length; exact hbc).
      destruct (In_nth _ _ 0 hm) as (i & hi & <-). rewrite length_swap in hi by exact hbS.
      destruct (Nat.eq_dec i b) as [->|hne]; [rewrite nth_swap_same by exact hbS; apply in_swap_new|].
      rewrite nth_swap_other by auto. unfold medS in hi |- *. rewrite map_length in hi.
      rewrite (nth_indep _ 0 (nth 0 med 0)) by (rewrite map_length; exact hi). rewrite (map_nth (fun c => nth c med 0) cs 0 i).
      apply in_swap_old; [apply hcs; exact hcin|apply hcs, nth_In; exact hi|].
      intros e. apply hne. apply (proj1 (NoDup_nth cs 0) hndc); auto. }
    lra.
  Qed.
End Part.

Lemma part_sizes n med assi cs objs meds : sizes n (length med) -> medoids n (length med) med -> cs <> [] ->
  part n med assi cs objs meds -> length meds = length cs /\ sizes (length objs) (length meds) /\ medoids (length objs) (length meds) meds.
Proof.
  intros hs (_ & hndm & hin) hne hp. destruct (pt_objects hp) as [hnd hob]. destruct (pt_clusters hp) as [hndc hcs].
  destruct (pt_medoids hp) as [hmap hmi].
  assert (hlen : length meds = length cs).
  { pose proof (f_equal (@length nat) hmap) as h. rewrite !map_length in h. exact h. }
  assert (hndS : NoDup (map (fun c => nth c med 0) cs)).
  { clear - hndm hndc hcs. induction cs as [|a l IH]; [constructor|]. inversion hndc as [|? ? h1 h2]; subst. cbn [map]. constructor.
    - intros h. apply in_map_iff in h as (c & e & hc). apply h1.
      rewrite <- (proj1 (NoDup_nth med 0) hndm c a (hcs c (or_intror hc)) (hcs a (or_introl eq_refl)) e). exact hc.
    - apply IH; [exact h2|]. intros c hc. apply hcs. right. exact hc. }
  rewrite <- hmap in hndS. apply NoDup_map_inv in hndS.
  assert (h1 : length meds <= length objs).
  { rewrite <- (seq_length (length objs) 0). apply NoDup_incl_length; [exact hndS|]. intros i hi. apply in_seq. specialize (hmi i hi). lia. }
  assert (h2 : length objs <= n).
  { rewrite <- (seq_length n 0). apply NoDup_incl_length; [exact hnd|]. intros o ho. apply in_seq. apply hob in ho. lia. }
  assert (h3 : 1 <= length cs) by (destruct cs; [congruence|simpl; lia]).
  assert (h4 : length cs <= length med).
  { rewrite <- (seq_length (length med) 0). apply NoDup_incl_length; [exact hndc|]. intros c hc. apply in_seq. specialize (hcs c hc). lia. }
  split; [exact hlen|]. split; [destruct hs as (a1 & a2 & a3); split; [lia|split; lia]|]. split; [reflexivity|]. split; [exact hndS|exact hmi].
Qed.

(** C99.  [M']: any matrix of the dissimilarities of the part, in any order of its objects.  The algorithms applied to the part may
    be different ones, with other orders and schedules; for a single cluster symmetry is needed. *)
Theorem C99_parts {Nt Lt : Type} `{HLL : LossLaws Nt Lt} (M : Mat Nt) n D orc order med maxiter :
  diss_matrix M n D -> sizes n (length med) -> medoids n (length med) med -> 2 <= length med ->
  Permutation order (seq 0 n) -> valid_oracle orc ->
  all_swap_runs (Lt := Lt) M orc order med maxiter (fun m => exists p, m = Ok p /\ (r_iter p < maxiter ->
    forall cs objs meds M' orc' order' maxiter', part n (r_med p) (r_assi p) cs objs meds -> cs <> [] ->
      diss_matrix M' (length objs) (restricted D objs) -> 2 <= length cs \/ symmetric n (vals D) ->
      Permutation order' (seq 0 (length objs)) -> valid_oracle orc' -> 0 < maxiter' ->
      all_swap_runs (Lt := Lt) M' orc' order' meds maxiter'
        (stays (sumQ (fun o => mindist (vals D) o (r_med p)) objs) meds) /\
      (symmetric n (vals D) ->
        stays (sumQ (fun o => mindist (vals D) o (r_med p)) objs) meds (alternating (Lt := Lt) M' meds maxiter')))).
Proof.
  intros hd hs hm h2 hp hor. destruct (perm_order n order hp) as [hnd ho].
  assert (hk : 2 <= length med \/ symmetric n (vals D)) by auto.
  assert (G : forall p : pam_result Lt, medoids n (length med) (r_med p) ->
    (forall o, o < n -> nearest (vals D) o (r_med p) (nth o (r_assi p) 0)) -> swap_optimal (vals D) n (r_med p) ->
    forall cs objs meds M' orc' order' maxiter', part n (r_med p) (r_assi p) cs objs meds -> cs <> [] ->
      diss_matrix M' (length objs) (restricted D objs) -> 2 <= length cs \/ symmetric n (vals D) ->
      Permutation order' (seq 0 (length objs)) -> valid_oracle orc' -> 0 < maxiter' ->
      all_swap_runs (Lt := Lt) M' orc' order' meds maxiter'
        (stays (sumQ (fun o => mindist (vals D) o (r_med p)) objs) meds) /\
      (symmetric n (vals D) ->
        stays (sumQ (fun o => mindist (vals D) o (r_med p)) objs) meds (alternating (Lt := Lt) M' meds maxiter'))).
  { intros p hmp hnp hopt cs objs meds M' orc' order' mi hpt hne hd' hk' hp' hor' hmi.
    pose proof (proj1 hmp) as hl. rewrite <- hl in hs, hmp.
    destruct (part_sizes n (r_med p) (r_assi p) cs objs meds hs hmp hne hpt) as (hlen & hs' & hm').
    pose proof (part_optimal (vals D) n (r_med p) (r_assi p) cs objs meds hnp hpt hopt) as hopt'.
    pose proof (part_loss (vals D) n (r_med p) (r_assi p) cs objs meds hnp hpt) as hloss.
    change (restricted (vals D) objs) with (vals (restricted D objs)) in hopt', hloss.
    assert (hk2 : 2 <= length meds \/ symmetric (length objs) (vals (restricted D objs))).
    { destruct hk' as [hk'|hsy]; [left; lia|right]. intros i j hi hj. destruct (pt_objects hpt) as [_ hob].
      apply hsy; apply hob, nth_In; assumption. }
    destruct (C49_fixpoints (Lt := Lt) M' (length objs) (restricted D objs) orc' order' meds mi hd' hs' hm' hk2 hp' hor' hmi) as [h _].
    specialize (h hopt').
    assert (K : forall m : res (pam_result Lt), stays (tdev (vals (restricted D objs)) (length objs) meds) meds m ->
      stays (sumQ (fun o => mindist (vals D) o (r_med p)) objs) meds m).
    { intros m (r & q1 & q2 & q3 & q4 & q5). exists r. repeat split; auto. rewrite q5. exact hloss. }
    destruct h as (g1 & g2 & g3 & g4 & g5). split.
    - unfold all_swap_runs. split; [|split; [|split; [|split]]]; apply K; assumption.
    - intros hsy. apply K. apply (C50_alternating_stays (Lt := Lt) M' (length objs) _ meds mi hd' hs' hm'); auto.
      intros i j hi hj. destruct (pt_objects hpt) as [_ hob]. apply hsy; apply hob, nth_In; assumption. }
  destruct (fasterpam_all (Lt := Lt) hd maxiter hs hm) as (r1 & e1 & h1).
  destruct (rand_fasterpam_all (Lt := Lt) hd maxiter hs hm hnd ho) as (r2 & e2 & h2').
  destruct (C13_schedule_independent (Lt := Lt) M n D orc order med maxiter hd hs hm ho hor)
    as (r2' & r3 & e2' & e3 & p1 & p0 & p2 & p3 & p4). rewrite e2 in e2'. injection e2' as <-.
  destruct (fastpam1_all (Lt := Lt) hd maxiter hs hm) as (r4 & e4 & e5 & h4).
  unfold all_swap_runs at 1. split; [|split; [|split; [|split]]].
  - exists r1. split; [exact e1|]. intros hlt. apply G; try apply h1; auto.
  - exists r2. split; [exact e2|]. intros hlt. apply G; try apply h2'; auto.
  - exists r3. split; [exact e3|]. intros hlt. assert (hlt2 : r_iter r2 < maxiter) by lia.
    apply G; rewrite <- ?p0, <- ?p1, <- ?p4; try apply h2'; auto.
  - exists r4. split; [exact e4|]. intros hlt. apply G; try apply h4; auto.
  - exists r4. split; [exact e5|]. intros hlt. apply G; try apply h4; auto.
Qed.
Print Assumptions C99_parts.
(** six objects on a line in three clusters; two of them on their own *)
Definition rows_p6 : list (list Z) :=
  [[0; 1; 10; 11; 30; 32]; [1; 0; 9; 10; 29; 31]; [10; 9; 0; 1; 20; 22]; [11; 10; 1; 0; 19; 21]; [30; 29; 20; 19; 0; 2];
   [32; 31; 22; 21; 2; 0]]%Z.
Definition m_p6 : Mat Z := mat_of_rows rows_p6.
Lemma p6_diss : diss_matrix m_p6 6 (entries rows_p6). Proof. apply rows_diss; [lia|reflexivity]. Qed.
Lemma p6_med : medoids 6 3 [0; 1; 2]. Proof. apply meds_ok. reflexivity. Qed.
Definition C99_case := C99_parts (Lt := Z) m_p6 6 (entries rows_p6) P_Pam.orc2 (seq 0 6) [0; 1; 2] 10 p6_diss
  ltac:(apply sizes_ok; reflexivity) p6_med (le_S _ _ (le_n 2)) (Permutation_refl _) P_Pam.orc2_ok.
Example C99_whole : fasterpam (Lt := Z) m_p6 [0; 1; 2] 10 = Ok (mkPR 4%Z [1; 1; 2; 2; 0; 0] 2 2 [4; 1; 2]).
Proof. vm_compute. reflexivity. Qed.
(** clusters 1 and 0, their objects in another order *)
Lemma p6_part : part 6 [4; 1; 2] [1; 1; 2; 2; 0; 0] [1; 0] [5; 0; 1; 4] [2; 3].
Proof.
  split.
  - split; [repeat constructor; simpl; lia|]. intros c [<-|[<-|[]]]; simpl; lia.
  - split; [repeat constructor; simpl; lia|]. intros o. split.
    + intros [<-|[<-|[<-|[<-|[]]]]]; simpl; auto with arith.
    + intros [ho hc]. do 6 (destruct o as [|o]; [simpl in hc |- *; intuition lia|]). lia.
  - split; [reflexivity|]. intros i [<-|[<-|[]]]; simpl; lia.
Qed.
Definition rows_p4 : list (list Z) := [[0; 32; 31; 2]; [32; 0; 1; 30]; [31; 1; 0; 29]; [2; 30; 29; 0]]%Z.
Lemma p4_diss : diss_matrix (mat_of_rows rows_p4) 4 (restricted (entries rows_p6) [5; 0; 1; 4]).
Proof.
  assert (e : forall i j, i < 4 -> j < 4 -> restricted (entries rows_p6) [5; 0; 1; 4] i j = entries rows_p4 i j).
  { intros i j hi hj. do 4 (destruct i as [|i]; [do 4 (destruct j as [|j]; [reflexivity|]); lia|]). lia. }
  assert (h : diss_matrix (mat_of_rows rows_p4) 4 (entries rows_p4)) by (apply rows_diss; [lia|reflexivity]).
  destruct h as ((a1 & a2 & a3) & a4 & a5). split; [split; [exact a1|split; [exact a2|]]|split].
  - intros x y hx hy. rewrite (e x y hx hy). apply a3; assumption.
  - intros x hx. rewrite (e x x hx hx). apply a4; assumption.
  - intros x y hx hy. unfold vals. rewrite (e x y hx hy). apply a5; assumption.
Qed.
Example C99_part : fasterpam (Lt := Z) (mat_of_rows rows_p4) [2; 3] 5 = Ok (mkPR 3%Z [1; 0; 0; 1] 1 0 [2; 3]).
Proof. vm_compute. reflexivity. Qed.

(** Not so for the medoid silhouette, where the other medoids matter to an object as well: objects at 0, 6, 9, 12 and 13. *)
Definition rows_p5 : list (list Z) := [[0; 6; 9; 12; 13]; [6; 0; 3; 6; 7]; [9; 3; 0; 3; 4]; [12; 6; 3; 0; 1]; [13; 7; 4; 1; 0]]%Z.
Definition rows_p3 : list (list Z) := [[0; 6; 9]; [6; 0; 3]; [9; 3; 0]]%Z.
Theorem C99_msc_refuted : exists (M M' : Mat Z) D cs objs meds (p p' : pam_result Q), diss_matrix M 5 D /\
  fastermsc M [0; 2; 3] 10 = Ok p /\ r_iter p < 10 /\ part 5 (r_med p) (r_assi p) cs objs meds /\ length cs = 2 /\
  is_matrix M' (length objs) (restricted D objs) /\
  fastermsc M' meds 10 = Ok p' /\ r_iter p' < 10 /\ r_swaps p' = 1 /\ ~ Permutation meds (r_med p').
Proof.
  exists (mat_of_rows rows_p5), (mat_of_rows rows_p3), (entries rows_p5), [0; 1], [0; 1; 2], [0; 2]. do 2 eexists.
  split; [apply rows_diss; [lia|reflexivity]|]. split; [vm_compute; reflexivity|]. split; [simpl; lia|]. split.
  { split.
    - split; [repeat constructor; simpl; lia|]. intros c [<-|[<-|[]]]; simpl; lia.
    - split; [repeat constructor; simpl; lia|]. intros o. split.
      + intros [<-|[<-|[<-|[]]]]; simpl; auto with arith.
      + intros [ho hc]. do 5 (destruct o as [|o]; [simpl in hc |- *; intuition lia|]). lia.
    - split; [reflexivity|]. intros i [<-|[<-|[]]]; simpl; lia. }
  split; [reflexivity|]. split.
  { split; [reflexivity|]. split; [reflexivity|]. intros x y hx hy. cbn [length] in hx, hy.
    do 3 (destruct x as [|x]; [do 3 (destruct y as [|y]; [reflexivity|]); lia|]). lia. }
  split; [vm_compute; reflexivity|]. split; [simpl; lia|]. split; [reflexivity|].
  intros h. apply (Permutation_in 2) in h; [|simpl; auto]. simpl in h. lia.
Qed.
Print Assumptions C99_msc_refuted.
