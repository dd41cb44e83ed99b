(** P_Approx.v -- property C45: how far a local optimum is from the optimum.
    Every theorem is followed by a concrete input which meets its hypotheses. *)
From Coq Require Import ZArith QArith Lqa Lia Permutation.
From Coq.Floats Require Import SpecFloat.
From Verif Require Import Base Num M_Mat M_Util M_Fasterpam M_Pam M_Alternating M_ParFasterpam Inst Hoare Spec SpecFacts
  Laws FloatFacts ParFacts Approx Ex P_Fasterpam P_Pam P_Float P_Bounded.
Open Scope nat_scope.

(** [x] is at most five times the total deviation of any [k] or fewer medoids *)
Definition within_five (v : diss) (n k : nat) (x : Q) : Prop :=
  forall opt, 1 <= length opt <= k -> (forall m, In m opt -> m < n) -> (x <= 5 * tdev v n opt)%Q.

(** C45.  Every converged run on metric data. *)
Theorem C45_fasterpam {Nt Lt : Type} `{HLL : LossLaws Nt Lt} (M : Mat Nt) n D med maxiter order orc :
  diss_matrix M n D -> sizes n (length med) -> medoids n (length med) med -> metric n (vals D) ->
  Permutation order (seq 0 n) -> valid_oracle orc ->
  exists r r' : pam_result Lt, rand_fasterpam M order med maxiter = Ok r /\ par_fasterpam M orc order med maxiter = Ok r' /\
    (r_iter r < maxiter \/ n ^ length med < maxiter -> within_five (vals D) n (length med) (vL (r_loss r)) /\
       within_five (vals D) n (length med) (vL (r_loss r')) /\
       within_five (vals D) n (length med) (assigned_cost (vals D) n (r_med r) (r_assi r))).
Proof.
  intros hd hs hm hme hp hor.
  assert (ho : forall j, In j order -> j < n).
  { intros j hj. apply (Permutation_in _ hp) in hj. apply in_seq in hj. lia. }
  assert (hk : 2 <= length med \/ symmetric n (vals D)) by (right; apply hme).
  destruct (C12_rand_fasterpam (Lt := Lt) M n D order med maxiter hd hs hm hk hp)
    as (r & e & c1 & c2 & c3 & c4 & c5 & c6 & c7 & c8 & c9 & c10 & c11 & c12 & c13).
  destruct (C13_schedule_independent (Lt := Lt) M n D orc order med maxiter hd hs hm ho hor)
    as (q & r' & d1 & d2 & d3 & d4 & d5 & d6 & d7).
  rewrite e in d1. injection d1 as <-. exists r, r'. split; [exact e|]. split; [exact d2|]. intros hc.
  assert (hlt : r_iter r < maxiter) by (destruct hc; lia).
  assert (h5 : within_five (vals D) n (length med) (vL (r_loss r))).
  { intros opt hl hin. rewrite c6. apply five_times; auto; [apply c1|]. rewrite (proj1 c1). exact hl. }
  split; [exact h5|]. split; intros opt hl hin; [rewrite <- d7|rewrite <- c5]; apply h5; assumption.
Qed.
Print Assumptions C45_fasterpam.

Theorem C45_pam_swap {Nt Lt : Type} `{HLL : LossLaws Nt Lt} (M : Mat Nt) n D med maxiter :
  diss_matrix M n D -> sizes n (length med) -> medoids n (length med) med -> metric n (vals D) ->
  exists r : pam_result Lt, fastpam1 M med maxiter = Ok r /\ pam_swap M med maxiter = Ok r /\
    (r_iter r < maxiter \/ n ^ length med < maxiter -> within_five (vals D) n (length med) (vL (r_loss r))).
Proof.
  intros hd hs hm hme. assert (hk : 2 <= length med \/ symmetric n (vals D)) by (right; apply hme).
  destruct (C14_steepest_descent (Lt := Lt) M n D med maxiter hd hs hm hk)
    as (r & e & e' & c1 & c2 & c3 & c4 & c5 & c6 & c7 & c8 & c9 & c10 & c11 & c12 & c13 & _).
  exists r. split; [exact e|]. split; [exact e'|]. intros hc opt hl hin.
  assert (hlt : r_iter r < maxiter) by (destruct hc; lia).
  rewrite c6. apply five_times; auto; [apply c1|]. rewrite (proj1 c1). exact hl.
Qed.
Print Assumptions C45_pam_swap.

(** PAM with BUILD.  (If BUILD finds fewer than [k] medoids, the loss is 0.) *)
Theorem C45_pam {Nt Lt : Type} `{HLL : LossLaws Nt Lt} (M : Mat Nt) n D k maxiter :
  diss_matrix M n D -> sizes n k -> metric n (vals D) ->
  exists r : pam_result Lt, pam M k maxiter = Ok r /\
    (r_iter r < maxiter \/ n ^ k < maxiter -> within_five (vals D) n k (vL (r_loss r))).
Proof.
  intros hd hs hme.
  destruct (C16_pam_build (Lt := Lt) M n D k hd hs) as (l & a & ms & eb & c1 & c2 & c3 & c4 & c5 & c6 & c7 & c8 & c9).
  destruct (C17_pam_is_build_swap (Lt := Lt) M n D k maxiter hd hs)
    as (r & r' & l' & a' & ms' & f1 & f2 & f3 & g1 & g2 & g3 & g4 & g5 & g6).
  rewrite eb in f2. injection f2 as <- <- <-.
  assert (hs' : sizes n (length ms)) by (destruct hs as (s1 & s2 & s3); split; [lia|split; [auto|lia]]).
  assert (hm' : medoids n (length ms) ms) by (split; [auto|split; auto]).
  destruct (C45_pam_swap (Lt := Lt) M n D ms maxiter hd hs' hm' hme) as (q & _ & e & h). rewrite f3 in e. injection e as <-.
  exists r. split; [exact f1|]. intros hc opt hl hin. destruct (Nat.eq_dec (length ms) k) as [ek|ek].
  - rewrite g5. rewrite ek in h. apply h; [rewrite <- g3|..]; assumption.
  - assert (hk : 2 <= length ms \/ symmetric n (vals D)) by (right; apply hme). specialize (g6 hk).
    rewrite c9 in g6 by lia. pose proof (tdev_nonneg opt (proj1 hme) hin). lra.
Qed.
Print Assumptions C45_pam.

(** binary64 on a grid, see C44; any run with an exact optimum *)
Theorem C45_exact {Lt} (val : Lt -> Q) v n k maxiter med (r : pam_result Lt) :
  metric n v -> exact_optimum val v n k maxiter med r -> r_iter r < maxiter -> within_five v n k (val (r_loss r)).
Proof.
  intros hme (h1 & _ & _ & _ & h5 & _ & _ & _ & h9) hlt opt hl hin. rewrite h5.
  apply five_times; auto; [apply h1|]. rewrite (proj1 h1). exact hl.
Qed.
Print Assumptions C45_exact.

Theorem C45_f64 (g m : Z) (M : Mat f64) n D med maxiter order orc :
  (-1074 <= g <= 970)%Z -> is_matrix M n D -> (forall x, x < n -> D x x = S754_zero false) -> on_grid g m n D ->
  (3 * Z.of_nat n * m <= 2 ^ 53)%Z ->
  sizes n (length med) -> medoids n (length med) med -> metric n (fun x y => f64_val (D x y)) ->
  Permutation order (seq 0 n) -> valid_oracle orc ->
  exists r r' : pam_result f64, rand_fasterpam M order med maxiter = Ok r /\ par_fasterpam M orc order med maxiter = Ok r' /\
    (r_iter r < maxiter -> within_five (fun x y => f64_val (D x y)) n (length med) (f64_val (r_loss r)) /\
                           within_five (fun x y => f64_val (D x y)) n (length med) (f64_val (r_loss r'))).
Proof.
  intros hg h1 h2 h3 hb hs hm hme hp hor.
  destruct (C44_f64_exact g m M n D med maxiter order orc hg h1 h2 h3 hb hs hm (or_intror (proj1 (proj2 hme))) hp hor)
    as (r & r' & e & hx & e' & _ & _ & _ & _ & el).
  exists r, r'. split; [exact e|]. split; [exact e'|]. intros hlt. pose proof (C45_exact f64_val _ _ _ _ _ r hme hx hlt) as h.
  split; [exact h|]. intros opt hl hin. rewrite el. apply h; assumption.
Qed.
Print Assumptions C45_f64.

(** ** Concrete inputs *)
Definition tri_b (n : nat) (rows : list (list Z)) : bool :=
  forallb (fun i => forallb (fun j => forallb (fun l => (entries rows i l <=? entries rows i j + entries rows j l)%Z)
    (seq 0 n)) (seq 0 n)) (seq 0 n).
Lemma rows_metric n rows : 1 <= n -> rows_ok n rows = true -> sym_b n rows = true -> tri_b n rows = true ->
  metric n (vals (entries rows)).
Proof.
  intros hn h1 h2 h3. split; [|split; [apply rows_sym; exact h2|]].
  - destruct (rows_diss rows hn h1) as (_ & h4 & h5). split.
    + intros i hi. unfold vals. rewrite (h4 i hi). reflexivity.
    + intros i j hi hj. apply h5; assumption.
  - intros i j l hi hj hl. pose proof (forallb_seq _ h3 hi) as h4. pose proof (forallb_seq _ h4 hj) as h5.
    pose proof (forallb_seq _ h5 hl) as h6. cbv beta in h6. apply Z.leb_le in h6. unfold vals. simpl.
    rewrite <- inject_Z_plus, <- Zle_Qle. exact h6.
Qed.

(** a metric on six objects *)
Definition rows_m : list (list Z) :=
  [[0; 1; 3; 2; 2; 2]; [1; 0; 2; 2; 1; 1]; [3; 2; 0; 2; 2; 3]; [2; 2; 2; 0; 3; 3]; [2; 1; 2; 3; 0; 2]; [2; 1; 3; 3; 2; 0]]%Z.
Lemma m_diss : diss_matrix (mat_of_rows rows_m) 6 (entries rows_m).
Proof. apply rows_diss; [lia|reflexivity]. Qed.
Lemma m_metric : metric 6 (vals (entries rows_m)).
Proof. apply rows_metric; [lia|reflexivity..]. Qed.
Lemma k045 : medoids 6 3 [0; 4; 5].
Proof. apply meds_ok. reflexivity. Qed.
Definition C45_case := C45_fasterpam (Lt := Z) (mat_of_rows rows_m) 6 (entries rows_m) [0; 4; 5] 10 [3; 5; 0; 1; 4; 2] P_Pam.orc2
  m_diss s63 k045 m_metric perm6 orc2_ok.
Definition C45_swap_case := C45_pam_swap (Lt := Z) (mat_of_rows rows_m) 6 (entries rows_m) [0; 4; 5] 10 m_diss s63 k045 m_metric.
Definition C45_pam_case := C45_pam (Lt := Z) (mat_of_rows rows_m) 6 (entries rows_m) 3 10 m_diss s63 m_metric.

(** the same distances divided by 4, in binary64 *)
Definition rows_mq : list (list f64) := Eval vm_compute in map (map quarter) rows_m.
Lemma mq_matrix : is_matrix (mat_of_rows rows_mq) 6 (fentries rows_mq).
Proof. apply (frows_diss 6 rows_mq); [lia|reflexivity]. Qed.
Lemma mq_diag x : x < 6 -> fentries rows_mq x x = S754_zero false.
Proof. apply (frows_diss 6 rows_mq); [lia|reflexivity]. Qed.
Lemma mq_grid : on_grid (-2)%Z 3%Z 6 (fentries rows_mq).
Proof. apply grid_rows. vm_compute. reflexivity. Qed.
Lemma mq_metric : metric 6 (fun x y => f64_val (fentries rows_mq x y)).
Proof.
  assert (h : forallb (fun x => forallb (fun y => Qeq_bool (f64_val (fentries rows_mq x y)) ((1 # 4) * vals (entries rows_m) x y))
    (seq 0 6)) (seq 0 6) = true) by (vm_compute; reflexivity).
  assert (e : forall x y, x < 6 -> y < 6 -> (f64_val (fentries rows_mq x y) == (1 # 4) * vals (entries rows_m) x y)%Q).
  { intros x y hx hy. pose proof (forallb_seq _ h hx) as h1. pose proof (forallb_seq _ h1 hy) as h2. apply Qeq_bool_iff. exact h2. }
  destruct m_metric as ((h1 & h2) & h3 & h4). split; [split|split].
  - intros i hi. rewrite e by assumption. rewrite (h1 i hi). reflexivity.
  - intros i j hi hj. rewrite e by assumption. pose proof (h2 i j hi hj). lra.
  - intros i j hi hj. rewrite !e by assumption. rewrite (h3 i j hi hj). reflexivity.
  - intros i j l hi hj hl. rewrite !e by assumption. pose proof (h4 i j l hi hj hl). lra.
Qed.
Definition C45_f64_case := C45_f64 (-2)%Z 3%Z (mat_of_rows rows_mq) 6 (fentries rows_mq) [0; 4; 5] 10 [3; 5; 0; 1; 4; 2] P_Pam.orc2
  ltac:(lia) mq_matrix mq_diag mq_grid ltac:(simpl; lia) s63 k045 mq_metric perm6 orc2_ok.

(** The optimum itself is not always found: loss 5, optimum at most 3. *)
Theorem C45_optimum_refuted : exists (M : Mat Z) D (r : pam_result Z) opt,
  diss_matrix M 6 D /\ metric 6 (vals D) /\ medoids 6 3 [0; 4; 5] /\ medoids 6 3 opt /\
  fasterpam M [0; 4; 5] 10 = Ok r /\ fastpam1 M [0; 4; 5] 10 = Ok r /\ r_iter r < 10 /\
  (vL (r_loss r) == 5)%Q /\ (tdev (vals D) 6 opt == 3)%Q.
Proof.
  exists (mat_of_rows rows_m), (entries rows_m), (mkPR 5%Z [0; 0; 1; 0; 1; 2] 1 0 [0; 4; 5]), [1; 2; 3].
  split; [exact m_diss|]. split; [exact m_metric|]. split; [exact k045|]. split; [apply meds_ok; reflexivity|].
  split; [vm_compute; reflexivity|]. split; [vm_compute; reflexivity|]. split; [cbn; lia|]. split; vm_compute; reflexivity.
Qed.
Print Assumptions C45_optimum_refuted.

(** Without the triangle inequality there is no such bound: loss 2, optimum 0. *)
Definition rows_nm : list (list Z) :=
  [[0; 2; 2; 0; 0; 2]; [2; 0; 0; 2; 2; 0]; [2; 0; 0; 2; 1; 2]; [0; 2; 2; 0; 2; 1]; [0; 2; 1; 2; 0; 2]; [2; 0; 2; 1; 2; 0]]%Z.
Theorem C45_nonmetric_refuted : exists (M : Mat Z) D (r : pam_result Z) opt,
  diss_matrix M 6 D /\ symmetric 6 (vals D) /\ medoids 6 2 [2; 3] /\ medoids 6 2 opt /\
  fasterpam M [2; 3] 10 = Ok r /\ fastpam1 M [2; 3] 10 = Ok r /\ r_iter r < 10 /\
  (vL (r_loss r) == 2)%Q /\ (tdev (vals D) 6 opt == 0)%Q.
Proof.
  exists (mat_of_rows rows_nm), (entries rows_nm), (mkPR 2%Z [1; 0; 0; 1; 0; 1] 1 0 [2; 3]), [0; 1].
  split; [apply rows_diss; [lia|reflexivity]|]. split; [apply rows_sym; reflexivity|]. split; [apply meds_ok; reflexivity|].
  split; [apply meds_ok; reflexivity|]. split; [vm_compute; reflexivity|]. split; [vm_compute; reflexivity|].
  split; [cbn; lia|]. split; vm_compute; reflexivity.
Qed.
Print Assumptions C45_nonmetric_refuted.

(** Alternating has no such bound even on metric data: four points on a line at 0, 10, 1000 and 1001,
    the fixed point reached from the medoids 0, 2, 3 costs 10, the optimum 1. *)
Definition rows_l : list (list Z) :=
  [[0; 10; 1000; 1001]; [10; 0; 990; 991]; [1000; 990; 0; 1]; [1001; 991; 1; 0]]%Z.
Theorem C45_alternating_refuted : exists (M : Mat Z) D (r : pam_result Z) opt,
  diss_matrix M 4 D /\ metric 4 (vals D) /\ medoids 4 3 [0; 2; 3] /\ medoids 4 3 opt /\
  alternating M [0; 2; 3] 10 = Ok r /\ r_iter r < 10 /\
  (vL (r_loss r) == 10)%Q /\ (tdev (vals D) 4 opt == 1)%Q.
Proof.
  exists (mat_of_rows rows_l), (entries rows_l), (mkPR 10%Z [0; 0; 1; 2] 1 0 [0; 2; 3]), [0; 1; 2].
  split; [apply rows_diss; [lia|reflexivity]|]. split; [apply rows_metric; [lia|reflexivity..]|].
  split; [apply meds_ok; reflexivity|]. split; [apply meds_ok; reflexivity|]. split; [vm_compute; reflexivity|].
  split; [cbn; lia|]. split; vm_compute; reflexivity.
Qed.
Print Assumptions C45_alternating_refuted.
