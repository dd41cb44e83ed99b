(** P_Restart.v -- properties C49 and C50: the swap algorithms have the same fixed points, namely
    the swap-optimal medoids; restarting one of them, or alternating, from the result of another
    changes nothing. *)
From Coq Require Import ZArith QArith Lqa Lia Permutation.
From Verif Require Import Base Num M_Mat M_Util M_Fasterpam M_Pam M_Alternating M_ParFasterpam M_Silhouette M_Msc
  M_Pammedsil Inst Hoare Spec SpecFacts Laws PamShape PamExact LocalSearch ChooseFacts FpFacts PamFacts
  AltFacts ParFacts FpMain PamMain SortFacts SilFacts MscShape MscExact MscFacts MscK2 MscMain Ex P_Fasterpam P_Pam P_Msc.
Open Scope nat_scope.

(** [m] is a run which stops at once, without a swap, at [med] *)
Definition stays {Nt Lt : Type} `{HLL : LossLaws Nt Lt} (value : Q) (med : list nat) (m : res (pam_result Lt)) : Prop :=
  exists r, m = Ok r /\ r_med r = med /\ r_swaps r = 0 /\ r_iter r = 1 /\ (vL (r_loss r) == value)%Q.

(** [m] is a run with at least one swap, to better medoids *)
Definition moves {Lt : Type} (v : diss) (n : nat) (med : list nat) (m : res (pam_result Lt)) : Prop :=
  exists r, m = Ok r /\ 0 < r_swaps r /\ (tdev v n (r_med r) < tdev v n med)%Q.

Definition all_swap_runs {Nt Lt : Type} `{HLL : LossLaws Nt Lt} (M : Mat Nt) (orc : oracle) (order med : list nat)
    (maxiter : nat) (P : res (pam_result Lt) -> Prop) : Prop :=
  P (fasterpam M med maxiter) /\ P (rand_fasterpam M order med maxiter) /\
  P (par_fasterpam M orc order med maxiter) /\ P (fastpam1 M med maxiter) /\ P (pam_swap M med maxiter).

Section Facts.
  Context {Nt Lt : Type} `{HLL : LossLaws Nt Lt}.
  Variables (M : Mat Nt) (n : nat) (D : nat -> nat -> Nt).
  Hypothesis HD : diss_matrix M n D.
  Local Notation v := (vals D).

  Lemma perm_order (order : list nat) : Permutation order (seq 0 n) -> NoDup order /\ forall j, In j order -> j < n.
  Proof.
    intros hp. split; [apply (Permutation_NoDup (Permutation_sym hp)), seq_NoDup|].
    intros j hj. apply (Permutation_in _ hp) in hj. apply in_seq in hj. lia.
  Qed.

  (** fastpam1 from a local optimum, by induction on the number of iterations *)
  Lemma fastpam1_stays med maxiter (r : pam_result Lt) : sizes n (length med) -> medoids n (length med) med ->
    2 <= length med -> swap_optimal v n med -> fastpam1 M med maxiter = Ok r -> r_med r = med.
  Proof.
    intros hs hm hk hopt. revert r. induction maxiter as [|m IH]; intros r e.
    - destruct (fastpam1_all (Lt := Lt) HD 0 hs hm) as (r' & e' & _ & h). rewrite e in e'. injection e' as <-.
      apply (sa_same h). destruct (sa_end h hk); lia.
    - destruct (fastpam1_all (Lt := Lt) HD m hs hm) as (r0 & e0 & _).
      destruct (fastpam1_steepest HD m hs hm hk e0 e) as [[h _]|(b & j & hb & hj & h1 & h2 & _)].
      + rewrite h. auto.
      + exfalso. rewrite (IH _ e0) in *. rewrite h1 in h2. specialize (hopt b j hb hj). lra.
  Qed.

  Lemma steep_stays med maxiter : sizes n (length med) -> medoids n (length med) med ->
    2 <= length med \/ symmetric n v -> swap_optimal v n med -> 0 < maxiter ->
    stays (tdev v n med) med (fastpam1 (Lt := Lt) M med maxiter) /\
    stays (tdev v n med) med (pam_swap (Lt := Lt) M med maxiter).
  Proof.
    intros hs hm hk hopt hmi. destruct (fastpam1_all (Lt := Lt) HD maxiter hs hm) as (r & e & e' & h).
    enough (hr : r_med r = med /\ r_swaps r = 0 /\ r_iter r = 1).
    { destruct hr as (h1 & h2 & h3).
      assert (hl : (vL (r_loss r) == tdev v n med)%Q) by (rewrite (sa_loss h hk), h1; reflexivity).
      split; exists r; auto. }
    destruct (Nat.eq_dec (length med) 1) as [h1|h1].
    - destruct (length_one med h1) as [x ->]. assert (hx : x < n) by (apply (proj2 (proj2 hm)); simpl; auto).
      destruct (rand_fasterpam_all (Lt := Lt) HD maxiter hs hm (seq_NoDup n 0)) as (q & eq & hq).
      { intros j hj. apply in_seq in hj. lia. }
      destruct (single_all (Lt := Lt) (proj1 HD) maxiter (seq 0 n) orc2 hs hx)
        as (_ & e1 & _ & e2 & _). rewrite e in e2. rewrite eq, <- e2 in e1. injection e1 as ->.
      destruct (fa_fix hq hk hopt hmi) as (f1 & f2). split; [exact (fa_same hq f1)|auto].
    - assert (hk2 : 2 <= length med) by (destruct hs; lia).
      pose proof (fastpam1_stays med maxiter r hs hm hk2 hopt e) as h2.
      assert (h3 : r_swaps r = 0).
      { destruct (Nat.eq_dec (r_swaps r) 0) as [|hne]; [auto|].
        pose proof (sa_strict h hk ltac:(lia)) as hlt. rewrite h2 in hlt. lra. }
      split; [auto|]. split; [auto|]. destruct (sa_end h hk2); lia.
  Qed.

  (** alternating from a local optimum *)
  Lemma alternating_stays med maxiter : sizes n (length med) -> medoids n (length med) med ->
    symmetric n v -> swap_optimal v n med -> 0 < maxiter ->
    stays (tdev v n med) med (alternating (Lt := Lt) M med maxiter).
  Proof.
    intros hs hm hsy hopt hmi. destruct maxiter as [|m]; [lia|]. unfold alternating.
    pose proof (assign_nearest_clustering (Lt := Lt) HD hs hm) as h.
    apply oks_inv in h as ([loss assi] & -> & hcl). cbn [bind fst snd whileM] in *.
    unfold alt_iteration. cbn [al_med al_assi al_loss al_iter].
    pose proof hcl as [c1 c2 c3 c4 _]. destruct hm as (_ & hnd & hin).
    pose proof (alt_medoids_ok (Lt := Lt) HD assi c1 hin c3) as h.
    apply oks_inv in h as ([med' ch] & -> & q1 & q2 & q3 & q4 & q5 & q6 & q7 & _). cbn [fst snd bind] in *.
    assert (hch : ch = false).
    { destruct ch; [|reflexivity]. exfalso. specialize (q7 eq_refl).
      assert (hno : forall c, c < length med ->
        (cluster_cost v n assi c (nth c med 0%nat) <= cluster_cost v n assi c (nth c med' 0%nat))%Q).
      { intros c hc. set (j := nth c med' 0).
        assert (hj : j < n) by (apply q2, nth_In; lia).
        assert (hin' : inr n (set_nth med c j)) by (apply inr_set_nth; auto).
        assert (hge := part_cost_ge assi hsy hin' ltac:(intros o ho; rewrite length_set_nth; apply (c2 o ho))).
        pose proof (hopt c j hc hj) as ho. rewrite swap_set_nth in ho by auto.
        rewrite <- (part_cost_tdev hsy hin hcl) in ho.
        assert (hle : (part_cost n D assi med <= part_cost n D assi (set_nth med c j))%Q) by lra.
        apply Qnot_lt_le. intros hlt. apply (Qlt_not_le _ _) in hle; [exact hle|]. unfold part_cost.
        rewrite length_set_nth. apply sum_lt_one with (i := c); auto.
        - rewrite nth_set_nth_eq by auto. exact hlt.
        - intros c' hc'. destruct (Nat.eq_dec c' c) as [->|hne].
          + rewrite nth_set_nth_eq by auto. lra.
          + rewrite set_nth_other by auto. lra. }
      assert (hle : (part_cost n D assi med <= part_cost n D assi med')%Q).
      { unfold part_cost. rewrite q1. apply sumQ_le. intros c hc. apply in_seq in hc. apply hno. lia. }
      lra. }
    subst ch. cbn [negb bind]. eexists. split; [reflexivity|]. cbn [r_med r_swaps r_iter r_loss al_med al_loss al_iter].
    auto.
  Qed.
End Facts.

(** C49.  From swap-optimal medoids every swap algorithm, in every order and schedule, stops after
    one iteration without a swap; from all others it does at least one swap, and improves. *)
Theorem C49_fixpoints {Nt Lt : Type} `{HLL : LossLaws Nt Lt} (M : Mat Nt) n D orc order med maxiter :
  diss_matrix M n D -> sizes n (length med) -> medoids n (length med) med ->
  2 <= length med \/ symmetric n (vals D) -> Permutation order (seq 0 n) -> valid_oracle orc -> 0 < maxiter ->
  (swap_optimal (vals D) n med ->
     all_swap_runs (Lt := Lt) M orc order med maxiter (stays (tdev (vals D) n med) med)) /\
  (~ swap_optimal (vals D) n med ->
     all_swap_runs (Lt := Lt) M orc order med maxiter (moves (vals D) n med)).
Proof.
  intros hd hs hm hk hp hor hmi. destruct (perm_order n order hp) as [hnd ho].
  destruct (fasterpam_all (Lt := Lt) hd maxiter hs hm) as (r1 & e1 & h1).
  destruct (rand_fasterpam_all (Lt := Lt) hd maxiter hs hm hnd ho) as (r2 & e2 & h2).
  destruct (C13_schedule_independent (Lt := Lt) M n D orc order med maxiter hd hs hm ho hor)
    as (r2' & r3 & e2' & e3 & p1 & _ & p2 & p3 & p4). rewrite e2 in e2'. injection e2' as <-.
  destruct (fastpam1_all (Lt := Lt) hd maxiter hs hm) as (r4 & e4 & e5 & h4).
  split; intros hopt; unfold all_swap_runs.
  - rewrite e1, e2, e3. destruct (fa_fix h1 hk hopt hmi) as (a1 & a2). destruct (fa_fix h2 hk hopt hmi) as (b1 & b2).
    pose proof (fa_same h1 a1) as a3. pose proof (fa_same h2 b1) as b3.
    assert (a4 : (vL (r_loss r1) == tdev (vals D) n med)%Q) by (rewrite (fa_loss h1 hk), a3; reflexivity).
    assert (b4 : (vL (r_loss r2) == tdev (vals D) n med)%Q) by (rewrite (fa_loss h2 hk), b3; reflexivity).
    split; [exists r1; auto|]. split; [exists r2; auto|].
    split; [exists r3; rewrite <- p1, <- p2, <- p3, <- p4; auto|].
    apply (steep_stays M n D hd med maxiter hs hm hk hopt hmi).
  - rewrite e1, e2, e3, e4, e5.
    assert (a : 0 < r_swaps r1).
    { destruct (Nat.eq_dec (r_swaps r1) 0) as [h0|]; [|lia]. exfalso. apply hopt.
      apply (fa_opt0 h1 hk h0 hmi). apply Permutation_refl. }
    assert (b : 0 < r_swaps r2).
    { destruct (Nat.eq_dec (r_swaps r2) 0) as [h0|]; [|lia]. exfalso. apply hopt. apply (fa_opt0 h2 hk h0 hmi hp). }
    assert (c : 0 < r_swaps r4).
    { destruct (Nat.eq_dec (r_swaps r4) 0) as [h0|]; [|lia]. exfalso. apply hopt. rewrite <- (sa_same h4 h0).
      destruct (Nat.eq_dec (length med) 1) as [hl|hl].
      - destruct (length_one med hl) as [x ->]. assert (hx : x < n) by (apply (proj2 (proj2 hm)); simpl; auto).
        destruct (single_all (Lt := Lt) (proj1 hd) maxiter (seq 0 n) orc hs hx) as (q1 & _ & _ & q2 & _).
        rewrite e4 in q2. rewrite e1, <- q2 in q1. injection q1 as ->.
        rewrite (sa_same h4 h0). apply (fa_opt0 h1 hk h0 hmi). apply Permutation_refl.
      - assert (hk2 : 2 <= length med) by (destruct hs; lia). destruct (sa_end h4 hk2) as [(_ & _ & h)|h]; [exact h|lia]. }
    pose proof (fa_strict h2 hk b) as hst. split; [exists r1; split; [auto|]; split; [auto|]; apply (fa_strict h1 hk a)|].
    split; [exists r2; auto|]. split; [exists r3; rewrite <- p1, <- p3; auto|].
    pose proof (sa_strict h4 hk c). split; exists r4; auto.
Qed.
Print Assumptions C49_fixpoints.

(** C49.  Hence once one of them has stopped before maxiter, restarting any of them from its
    medoids gives the same medoids and the same loss. *)
Theorem C49_restart {Nt Lt : Type} `{HLL : LossLaws Nt Lt} (M : Mat Nt) n D orc order med maxiter orc' order' maxiter' :
  diss_matrix M n D -> sizes n (length med) -> medoids n (length med) med ->
  2 <= length med \/ symmetric n (vals D) -> Permutation order (seq 0 n) -> Permutation order' (seq 0 n) ->
  valid_oracle orc -> valid_oracle orc' -> 0 < maxiter' ->
  all_swap_runs (Lt := Lt) M orc order med maxiter (fun m => exists r, m = Ok r /\ (r_iter r < maxiter ->
    all_swap_runs (Lt := Lt) M orc' order' (r_med r) maxiter' (stays (vL (r_loss r)) (r_med r)))).
Proof.
  intros hd hs hm hk hp hp' hor hor' hmi. destruct (perm_order n order hp) as [hnd ho].
  assert (G : forall r : pam_result Lt, medoids n (length med) (r_med r) -> swap_optimal (vals D) n (r_med r) ->
            (vL (r_loss r) == tdev (vals D) n (r_med r))%Q ->
            all_swap_runs (Lt := Lt) M orc' order' (r_med r) maxiter' (stays (vL (r_loss r)) (r_med r))).
  { intros r (m1 & m2 & m3) hopt hl.
    destruct (C49_fixpoints (Lt := Lt) M n D orc' order' (r_med r) maxiter' hd) as [h _]; rewrite ?m1; auto; [split; auto|].
    specialize (h hopt).
    assert (W : forall m, stays (Lt := Lt) (tdev (vals D) n (r_med r)) (r_med r) m -> stays (vL (r_loss r)) (r_med r) m).
    { intros m (x & x1 & x2 & x3 & x4 & x5). exists x. rewrite hl. auto. }
    destruct h as (y1 & y2 & y3 & y4 & y5). repeat split; apply W; auto. }
  destruct (fasterpam_all (Lt := Lt) hd maxiter hs hm) as (r1 & e1 & h1).
  destruct (rand_fasterpam_all (Lt := Lt) hd maxiter hs hm hnd ho) as (r2 & e2 & h2).
  destruct (C13_schedule_independent (Lt := Lt) M n D orc order med maxiter hd hs hm ho hor)
    as (r2' & r3 & e2' & e3 & p1 & _ & p2 & p3 & p4). rewrite e2 in e2'. injection e2' as <-.
  destruct (fastpam1_all (Lt := Lt) hd maxiter hs hm) as (r4 & e4 & e5 & h4).
  assert (G4 : r_iter r4 < maxiter -> all_swap_runs (Lt := Lt) M orc' order' (r_med r4) maxiter' (stays (vL (r_loss r4)) (r_med r4))).
  { intros hlt. apply G; [exact (sa_medoids h4)|exact (sa_opt h4 hk hlt)|exact (sa_loss h4 hk)]. }
  unfold all_swap_runs at 1. rewrite e1, e2, e3, e4, e5.
  split; [exists r1; split; [auto|]|split; [exists r2; split; [auto|]|split; [exists r3; split; [auto|]|split; exists r4; auto]]].
  - intros hlt. apply G; [exact (fa_medoids h1)|exact (fa_opt h1 hk hlt (Permutation_refl _))|exact (fa_loss h1 hk)].
  - intros hlt. apply G; [exact (fa_medoids h2)|exact (fa_opt h2 hk hlt hp)|exact (fa_loss h2 hk)].
  - intros hlt. rewrite <- p2 in hlt. apply G.
    + rewrite <- p1. exact (fa_medoids h2).
    + rewrite <- p1. exact (fa_opt h2 hk hlt hp).
    + rewrite <- p1, <- p4. exact (fa_loss h2 hk).
Qed.
Print Assumptions C49_restart.

Definition C49_case := C49_fixpoints (Lt := Z) m6 6 d6 orc2 [3; 5; 0; 1; 4; 2] [0; 1; 3] 10 m6_diss s63 k63
  (or_introl le23) perm6 orc2_ok (Nat.lt_0_succ 9).
Definition C49_restart_case := C49_restart (Lt := Z) m6 6 d6 orc2 [3; 5; 0; 1; 4; 2] [0; 1; 3] 10
  orc2 (seq 0 6) 5 m6_diss s63 k63 (or_introl le23) perm6 (Permutation_refl _) orc2_ok orc2_ok (Nat.lt_0_succ 4).
(** both halves occur: [0; 1; 3] is not optimal, the result from there is *)
Example C49_case_moves : exists r : pam_result Z,
  fasterpam m6 [0; 1; 3] 10 = Ok r /\ r_swaps r = 2 /\ r_iter r = 2 /\ r_med r = [4; 1; 3].
Proof. eexists. split; [vm_compute; reflexivity|]. repeat split. Qed.
Example C49_case_stays : exists r : pam_result Z,
  pam_swap m6 [4; 1; 3] 10 = Ok r /\ r_swaps r = 0 /\ r_iter r = 1 /\ r_med r = [4; 1; 3].
Proof. eexists. split; [vm_compute; reflexivity|]. repeat split. Qed.

(** C50.  On symmetric data alternating leaves swap-optimal medoids alone ... *)
Theorem C50_alternating_stays {Nt Lt : Type} `{HLL : LossLaws Nt Lt} (M : Mat Nt) n D med maxiter :
  diss_matrix M n D -> sizes n (length med) -> medoids n (length med) med -> symmetric n (vals D) ->
  swap_optimal (vals D) n med -> 0 < maxiter ->
  stays (tdev (vals D) n med) med (alternating (Lt := Lt) M med maxiter).
Proof. intros hd hs hm hsy hopt hmi. apply (alternating_stays M n D hd); auto. Qed.
Print Assumptions C50_alternating_stays.

(** ... so that it adds nothing after a swap algorithm which stopped before maxiter. *)
Theorem C50_alternating_after_swap {Nt Lt : Type} `{HLL : LossLaws Nt Lt} (M : Mat Nt) n D orc order med maxiter maxiter' :
  diss_matrix M n D -> sizes n (length med) -> medoids n (length med) med -> symmetric n (vals D) ->
  Permutation order (seq 0 n) -> valid_oracle orc -> 0 < maxiter' ->
  all_swap_runs (Lt := Lt) M orc order med maxiter (fun m => exists r, m = Ok r /\ (r_iter r < maxiter ->
    stays (vL (r_loss r)) (r_med r) (alternating (Lt := Lt) M (r_med r) maxiter'))).
Proof.
  intros hd hs hm hsy hp hor hmi. destruct (perm_order n order hp) as [hnd ho].
  assert (hk : 2 <= length med \/ symmetric n (vals D)) by auto.
  assert (G : forall r : pam_result Lt, medoids n (length med) (r_med r) -> swap_optimal (vals D) n (r_med r) ->
            (vL (r_loss r) == tdev (vals D) n (r_med r))%Q ->
            stays (vL (r_loss r)) (r_med r) (alternating (Lt := Lt) M (r_med r) maxiter')).
  { intros r (m1 & m2 & m3) hopt hl.
    destruct (C50_alternating_stays (Lt := Lt) M n D (r_med r) maxiter' hd) as (x & x1 & x2 & x3 & x4 & x5);
      rewrite ?m1; auto; [split; auto|]. exists x. rewrite hl. auto. }
  destruct (fasterpam_all (Lt := Lt) hd maxiter hs hm) as (r1 & e1 & h1).
  destruct (rand_fasterpam_all (Lt := Lt) hd maxiter hs hm hnd ho) as (r2 & e2 & h2).
  destruct (C13_schedule_independent (Lt := Lt) M n D orc order med maxiter hd hs hm ho hor)
    as (r2' & r3 & e2' & e3 & p1 & _ & p2 & p3 & p4). rewrite e2 in e2'. injection e2' as <-.
  destruct (fastpam1_all (Lt := Lt) hd maxiter hs hm) as (r4 & e4 & e5 & h4).
  assert (G4 : r_iter r4 < maxiter -> stays (vL (r_loss r4)) (r_med r4) (alternating (Lt := Lt) M (r_med r4) maxiter')).
  { intros hlt. apply G; [exact (sa_medoids h4)|exact (sa_opt h4 hk hlt)|exact (sa_loss h4 hk)]. }
  unfold all_swap_runs. rewrite e1, e2, e3, e4, e5.
  split; [exists r1; split; [auto|]|split; [exists r2; split; [auto|]|split; [exists r3; split; [auto|]|split; exists r4; auto]]].
  - intros hlt. apply G; [exact (fa_medoids h1)|exact (fa_opt h1 hk hlt (Permutation_refl _))|exact (fa_loss h1 hk)].
  - intros hlt. apply G; [exact (fa_medoids h2)|exact (fa_opt h2 hk hlt hp)|exact (fa_loss h2 hk)].
  - intros hlt. rewrite <- p2 in hlt. apply G.
    + rewrite <- p1. exact (fa_medoids h2).
    + rewrite <- p1. exact (fa_opt h2 hk hlt hp).
    + rewrite <- p1, <- p4. exact (fa_loss h2 hk).
Qed.
Print Assumptions C50_alternating_after_swap.

(** The converse fails, even on the real line: alternating gets stuck in medoids which one swap improves. *)
Definition rows_line : list (list Z) :=
  map (fun x => map (fun y => Z.abs (x - y)%Z) [0; 1; 10; 11; 20]%Z) [0; 1; 10; 11; 20]%Z.
Lemma line_diss : diss_matrix (mat_of_rows rows_line) 5 (entries rows_line).
Proof. apply rows_diss; [lia|reflexivity]. Qed.
Lemma line_sym : symmetric 5 (vals (entries rows_line)).
Proof.
  intros i j hi hj. do 5 (destruct i as [|i]; [do 5 (destruct j as [|j]; [reflexivity|]); lia|]). lia.
Qed.
Theorem C50_converse_refuted : exists (M : Mat Z) D (r q : pam_result Z),
  diss_matrix M 5 D /\ symmetric 5 (vals D) /\ medoids 5 3 [0; 1; 3] /\
  alternating M [0; 1; 3] 10 = Ok r /\ r_med r = [0; 1; 3] /\ r_iter r = 1 /\
  ~ swap_optimal (vals D) 5 [0; 1; 3] /\
  fasterpam M [0; 1; 3] 10 = Ok q /\ (r_loss q < r_loss r)%Z.
Proof.
  exists (mat_of_rows rows_line), (entries rows_line). do 2 eexists.
  split; [apply line_diss|]. split; [apply line_sym|]. split; [apply meds_ok; reflexivity|].
  split; [vm_compute; reflexivity|]. split; [reflexivity|]. split; [reflexivity|]. split.
  - intros h. specialize (h 1 4 ltac:(simpl; lia) ltac:(lia)). vm_compute in h. apply h. reflexivity.
  - split; [vm_compute; reflexivity|reflexivity].
Qed.
Print Assumptions C50_converse_refuted.
Definition C50_case := C50_alternating_after_swap (Lt := Z) (mat_of_rows rows_line) 5 (entries rows_line) orc2
  (seq 0 5) [0; 1; 3] 10 10 line_diss s53 (meds_ok 5 3 [0; 1; 3] eq_refl) line_sym (Permutation_refl _) orc2_ok
  (Nat.lt_0_succ 9).

(** C51.  The medoid silhouette algorithms have the same fixed points, too: the medoids no swap of
    which has a larger medoid silhouette. *)
Definition all_msc_runs {Nt Lt : Type} `{HLL : LossLaws Nt Lt} `{HDL : !DivLaws Nt Lt} (M : Mat Nt) (med : list nat)
    (maxiter : nat) (P : res (pam_result Lt) -> Prop) : Prop :=
  P (fastermsc M med maxiter) /\ P (fastmsc M med maxiter) /\ P (pammedsil_swap M med maxiter).

Definition msc_moves {Lt : Type} (v : diss) (n : nat) (med : list nat) (m : res (pam_result Lt)) : Prop :=
  exists r, m = Ok r /\ 0 < r_swaps r /\ (med_sil v n med < med_sil v n (r_med r))%Q.

Lemma best_stays n v med med' : sil_optimal v n med -> best_sil_swap n v med med' -> med' = med.
Proof.
  intros hopt [[h _]|(b & j & hb & hj & hin & -> & hlt & _)]; [exact h|].
  exfalso. specialize (hopt b j hb hj hin). lra.
Qed.

Theorem C51_msc_fixpoints {Nt Lt : Type} `{HLL : LossLaws Nt Lt} `{HAL : !AddLaws Nt} `{HDL : !DivLaws Nt Lt}
    (M : Mat Nt) n D med maxiter :
  diss_matrix M n D -> sizes n (length med) -> medoids n (length med) med -> 2 <= length med -> 0 < maxiter ->
  (sil_optimal (vals D) n med -> all_msc_runs (Lt := Lt) M med maxiter (stays (med_sil (vals D) n med) med)) /\
  (~ sil_optimal (vals D) n med -> all_msc_runs (Lt := Lt) M med maxiter (msc_moves (vals D) n med)).
Proof.
  intros hd hs hm hk hmi.
  destruct (fastermsc_all (Lt := Lt) hd maxiter hs hm hk) as (r1 & e1 & h1 & _ & _ & f1 & _).
  destruct (fastmsc_all (Lt := Lt) hd maxiter hs hm hk) as (r2 & e2 & h2 & _ & s2 & _).
  destruct (pammedsil_swap_all (Lt := Lt) hd maxiter hs hm hk) as (r3 & e3 & h3 & _ & s3 & _).
  unfold all_msc_runs. rewrite e1, e2, e3. split; intros hopt.
  - assert (G : forall r : pam_result Lt, msc_summary n D med maxiter r -> r_swaps r = 0 -> r_iter r = 1 ->
              stays (med_sil (vals D) n med) med (Ok r)).
    { intros r h hsw hit. exists r. pose proof (ms_same h hsw) as e. rewrite (ms_value h), e. repeat split; auto. }
    assert (S : forall r : pam_result Lt, msc_summary n D med maxiter r -> steep_end n D maxiter r ->
              r_med r = med -> r_swaps r = 0 /\ r_iter r = 1).
    { intros r h he e. assert (h0 : r_swaps r = 0).
      { destruct (Nat.eq_dec (r_swaps r) 0) as [|hne]; [auto|]. exfalso.
        pose proof (ms_strict h ltac:(lia)) as hl. rewrite e in hl. lra. }
      destruct he as [[h4 _]|[h4 h5]]; lia. }
    assert (hs0 : forall m, (forall r : pam_result Lt, fastmsc M med m = Ok r -> r_med r = med) /\
                            (forall r : pam_result Lt, pammedsil_swap M med m = Ok r -> r_med r = med)).
    { induction m as [|m [IH1 IH2]].
      - destruct (fastmsc_all (Lt := Lt) hd 0 hs hm hk) as (q2 & g2 & k2 & _ & t2 & _).
        destruct (pammedsil_swap_all (Lt := Lt) hd 0 hs hm hk) as (q3 & g3 & k3 & _ & t3 & _).
        split; intros r e; [rewrite g2 in e; injection e as <-; apply (ms_same k2); destruct t2 as [[? _]|[? ?]];
          pose proof (ms_iter k2); lia|rewrite g3 in e; injection e as <-; apply (ms_same k3); destruct t3 as [[? _]|[? ?]];
          pose proof (ms_iter k3); lia].
      - destruct (C28_best_swap (Lt := Lt) M n D med m hd hs hm hk) as (a & a' & b & b' & x1 & x2 & x3 & x4 & x5 & x6).
        split; intros r e; [rewrite x2 in e|rewrite x4 in e]; injection e as <-.
        + rewrite (IH1 _ x1) in x5. exact (best_stays _ _ _ _ hopt x5).
        + rewrite (IH2 _ x3) in x6. exact (best_stays _ _ _ _ hopt x6). }
    destruct (hs0 maxiter) as [g2 g3]. destruct (f1 hopt hmi) as [y1 y2].
    destruct (S _ h2 s2 (g2 _ e2)) as [y3 y4]. destruct (S _ h3 s3 (g3 _ e3)) as [y5 y6].
    split; [|split]; apply G; auto.
  - assert (G : forall r : pam_result Lt, msc_summary n D med maxiter r -> msc_moves (vals D) n med (Ok r)).
    { intros r h. exists r. split; [auto|].
      assert (h0 : 0 < r_swaps r).
      { destruct (Nat.eq_dec (r_swaps r) 0) as [h0|]; [|lia]. exfalso. apply hopt.
        rewrite <- (ms_same h h0). apply (ms_opt h). auto. }
      split; [auto|exact (ms_strict h h0)]. }
    split; [|split]; apply G; auto.
Qed.
Print Assumptions C51_msc_fixpoints.

Theorem C51_msc_restart {Nt Lt : Type} `{HLL : LossLaws Nt Lt} `{HAL : !AddLaws Nt} `{HDL : !DivLaws Nt Lt}
    (M : Mat Nt) n D med maxiter maxiter' :
  diss_matrix M n D -> sizes n (length med) -> medoids n (length med) med -> 2 <= length med -> 0 < maxiter' ->
  all_msc_runs (Lt := Lt) M med maxiter (fun m => exists r, m = Ok r /\ (r_iter r < maxiter ->
    all_msc_runs (Lt := Lt) M (r_med r) maxiter' (stays (vL (r_loss r)) (r_med r)))).
Proof.
  intros hd hs hm hk hmi.
  destruct (fastermsc_all (Lt := Lt) hd maxiter hs hm hk) as (r1 & e1 & h1 & _).
  destruct (fastmsc_all (Lt := Lt) hd maxiter hs hm hk) as (r2 & e2 & h2 & _).
  destruct (pammedsil_swap_all (Lt := Lt) hd maxiter hs hm hk) as (r3 & e3 & h3 & _).
  assert (G : forall r : pam_result Lt, msc_summary n D med maxiter r -> r_iter r < maxiter ->
            all_msc_runs (Lt := Lt) M (r_med r) maxiter' (stays (vL (r_loss r)) (r_med r))).
  { intros r h hlt. pose proof (ms_medoids h) as hmr. pose proof (proj1 hmr) as hl.
    destruct (C51_msc_fixpoints (Lt := Lt) M n D (r_med r) maxiter' hd) as [g _]; rewrite ?hl; auto.
    assert (W : forall m, stays (Lt := Lt) (med_sil (vals D) n (r_med r)) (r_med r) m -> stays (vL (r_loss r)) (r_med r) m).
    { intros m (x & x1 & x2 & x3 & x4 & x5). exists x. rewrite (ms_value h). auto. }
    destruct (g (ms_opt h (or_introl hlt))) as (y1 & y2 & y3). repeat split; apply W; auto. }
  unfold all_msc_runs at 1. rewrite e1, e2, e3.
  split; [|split]; eexists; split; eauto.
Qed.
Print Assumptions C51_msc_restart.
Definition C51_case := C51_msc_fixpoints (Lt := Q) m6 6 d6 [0; 1; 3] 10 m6_diss s63 k63 le23 (Nat.lt_0_succ 9).
Definition C51_restart_case := C51_msc_restart (Lt := Q) m6 6 d6 [0; 1; 3] 10 10 m6_diss s63 k63 le23 (Nat.lt_0_succ 9).
Example C51_case_moves : exists r : pam_result Q, fastermsc m6 [0; 1; 3] 10 = Ok r /\ 0 < r_swaps r /\ r_iter r < 10.
Proof. eexists. split; [vm_compute; reflexivity|]. cbn. lia. Qed.
