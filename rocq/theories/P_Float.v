(** P_Float.v -- property C40: what survives rounding.  The dissimilarities only need exact
    comparisons, as finite binary64 numbers have; the loss type has any arithmetic at all.
    Every theorem is followed by a concrete input which meets its hypotheses. *)
From Coq Require Import ZArith QArith Lqa Lia.
From Coq.Floats Require Import SpecFloat.
From Verif Require Import Base Num M_Mat M_Util M_Fasterpam M_Pam M_Alternating M_ParFasterpam M_Silhouette M_Msc M_Pammedsil Inst Hoare Spec
  Laws FloatFacts PamShape FloatMain MscAny Ex P_Pam.
Open Scope nat_scope.

(** distinct medoids, every object with a nearest medoid, every medoid in its own cluster *)
Definition well_assigned {Lt} (n k : nat) (v : diss) (r : pam_result Lt) : Prop :=
  medoids n k (r_med r) /\ length (r_assi r) = n /\
  (forall o, o < n -> nearest v o (r_med r) (nth o (r_assi r) 0)) /\
  (forall c, c < k -> nth (nth c (r_med r) 0) (r_assi r) 0 = c).

(** [(((x0 + x1) + x2) + ...)] in the arithmetic of the loss type *)
Definition left_sum {Lt} `{NumL Lt} (l : list Lt) : Lt :=
  match l with [] => lzero | x :: l' => fold_left ladd l' x end.

(** the dissimilarities to the assigned medoids, converted to losses *)
Definition assigned_losses {Nt Lt} `{FromN Nt Lt} (n : nat) (D : nat -> nat -> Nt) (r : pam_result Lt) : list Lt :=
  map (fun o => lfrom (D o (nth (nth o (r_assi r) 0) (r_med r) 0))) (seq 0 n).

Lemma left_sum_reduce {Lt} `{NumL Lt} (l : list Lt) x : reduce ladd l = Some x -> x = left_sum l.
Proof. destruct l; cbn; intros h; [discriminate|congruence]. Qed.

(** ** binary64 matrices *)
Definition fentries (rows : list (list f64)) (x y : nat) : f64 := nth y (nth x rows []) (S754_zero false).
Definition f64_b (x : f64) : bool :=
  match x with S754_zero s => true | S754_finite s m e => negb s && bounded fprec femax m e | _ => false end.
Definition f64_zero_b (x : f64) : bool := match x with S754_zero false => true | _ => false end.
Definition frows_ok (n : nat) (rows : list (list f64)) : bool :=
  (length rows =? n) && forallb (fun r => length r =? n) rows &&
  forallb (fun i => f64_zero_b (fentries rows i i)) (seq 0 n) &&
  forallb (fun i => forallb (fun j => f64_b (fentries rows i j)) (seq 0 n)) (seq 0 n).

Lemma frows_diss n rows : 1 <= n -> frows_ok n rows = true -> diss_matrix (mat_of_rows rows) n (fentries rows).
Proof.
  intros hn h. apply andb_true_iff in h as [h h4]. apply andb_true_iff in h as [h h3].
  apply andb_true_iff in h as [h1 h2]. apply Nat.eqb_eq in h1. rewrite forallb_forall in h2.
  assert (hl : forall r, In r rows -> length r = n) by (intros r hr; apply Nat.eqb_eq; auto).
  assert (hc : length (hd [] rows) = n) by (destruct rows; simpl in *; [lia|auto]).
  split; [split; [exact h1|split]|split].
  - simpl. rewrite h1, hc, Nat.eqb_refl. auto.
  - intros x y hx hy. simpl. rewrite h1, hc.
    apply Nat.ltb_lt in hx as hx'. apply Nat.ltb_lt in hy as hy'. rewrite hx', hy'. simpl.
    apply idx_some. rewrite (concat_rows (n := n)) by (auto; lia). unfold fentries.
    apply nth_error_nth'. rewrite hl; auto. apply nth_In. lia.
  - intros x hx. pose proof (forallb_seq _ h3 hx) as h5. cbv beta in h5.
    destruct (fentries rows x x) as [[|]|[|]| |[|] m e]; try discriminate h5. reflexivity.
  - intros x y hx hy. pose proof (forallb_seq _ h4 hx) as h5. pose proof (forallb_seq _ h5 hy) as h6.
    cbv beta in h6. unfold vals. cbn [okN vN OrdLaws_f64].
    destruct (fentries rows x y) as [s|s| |s m e]; try discriminate h6; cbn [f64_b f64_finite f64_val] in *.
    + split; [exact I|apply Qle_refl].
    + apply andb_true_iff in h6 as [h6 h7]. split; [auto|]. destruct s; [discriminate h6|].
      apply Qlt_le_weak, f64_pos.
Qed.

(** the float nearest to z / 10 *)
Definition tenth (z : Z) : f64 := SFdiv fprec femax (f64_of_Z z) (f64_of_Z 10).
Definition rows_f1 : list (list f64) := Eval vm_compute in map (map tenth)
  [[0; 8; 1; 2; 4]; [8; 0; 9; 9; 4]; [1; 9; 0; 3; 3]; [2; 9; 3; 0; 2]; [4; 4; 3; 2; 0]]%Z.
Lemma f1_diss : diss_matrix (mat_of_rows rows_f1) 5 (fentries rows_f1).
Proof. apply frows_diss; [lia|reflexivity]. Qed.

(** C40.  fasterpam and rand_fasterpam: however rounding affects the decisions to swap, the result is
    consistent, and for two or more medoids the reported loss is exactly the left-to-right sum of
    the assigned dissimilarities in the arithmetic of the loss type. *)
Theorem C40_fasterpam {Nt Lt : Type} `{HO : OrdLaws Nt} `{HL : NumL Lt} `{HF : FromN Nt Lt}
    (M : Mat Nt) n D med maxiter order :
  diss_matrix M n D -> sizes n (length med) -> medoids n (length med) med ->
  (forall j, In j order -> j < n) ->
  exists r1 r2 : pam_result Lt,
    fasterpam M med maxiter = Ok r1 /\ rand_fasterpam M order med maxiter = Ok r2 /\
    well_assigned n (length med) (vals D) r1 /\ well_assigned n (length med) (vals D) r2 /\
    (2 <= length med -> lfrom (nzero : Nt) = (lzero : Lt) ->
       r_loss r1 = left_sum (assigned_losses n D r1) /\ r_loss r2 = left_sum (assigned_losses n D r2)).
Proof.
  intros hd hs hm ho.
  assert (h0 : forall j, In j (seq 0 (mlen M)) -> j < n).
  { intros j hj. apply in_seq in hj. rewrite (proj1 (proj1 hd)) in hj. lia. }
  pose proof (fasterpam_order_fits (Lt := Lt) hd _ maxiter hs hm h0) as h1.
  pose proof (fasterpam_order_fits (Lt := Lt) hd order maxiter hs hm ho) as h2.
  apply oks_inv in h1 as (r1 & e1 & f1 & l1). apply oks_inv in h2 as (r2 & e2 & f2 & l2).
  exists r1, r2. split; [exact e1|]. split; [exact e2|]. split; [exact f1|]. split; [exact f2|].
  intros hk hz. split; apply left_sum_reduce; auto.
Qed.
Print Assumptions C40_fasterpam.
Definition C40_fasterpam_case := C40_fasterpam (Lt := f64) _ 5 _ [0; 1] 10 [3; 0; 2] f1_diss s52 k52
  (fun j h => ltac:(simpl in h; lia)).

(** Alternating: likewise, for every number of medoids. *)
Theorem C40_alternating {Nt Lt : Type} `{HO : OrdLaws Nt} `{HL : NumL Lt} `{HF : FromN Nt Lt}
    (M : Mat Nt) n D med maxiter :
  diss_matrix M n D -> sizes n (length med) -> medoids n (length med) med ->
  exists r : pam_result Lt, alternating M med maxiter = Ok r /\
    well_assigned n (length med) (vals D) r /\ r_loss r = left_sum (assigned_losses n D r).
Proof.
  intros hd hs hm. pose proof (alternating_fits (Lt := Lt) hd maxiter hs hm) as h.
  apply oks_inv in h as (r & e & f & l). exists r. split; [auto|]. split; [exact f|].
  apply left_sum_reduce. exact l.
Qed.
Print Assumptions C40_alternating.
Definition C40_alternating_case := C40_alternating (Lt := f64) _ 5 _ [0; 1] 10 f1_diss s52 k52.

(** par_fasterpam, for every scheduling of its tasks and every shape of its reductions; the reported
    loss is the sum of the assigned dissimilarities with the brackets placed in some way. *)
Theorem C40_par_fasterpam {Nt Lt : Type} `{HO : OrdLaws Nt} `{HL : NumL Lt} `{HF : FromN Nt Lt}
    (M : Mat Nt) n D med maxiter order orc :
  diss_matrix M n D -> sizes n (length med) -> medoids n (length med) med ->
  (forall j, In j order -> j < n) ->
  exists r : pam_result Lt, par_fasterpam M orc order med maxiter = Ok r /\
    well_assigned n (length med) (vals D) r /\
    (2 <= length med -> lfrom (nzero : Nt) = (lzero : Lt) -> bracketed (assigned_losses n D r) (r_loss r)).
Proof.
  intros hd hs hm ho. pose proof (par_fasterpam_fits (Lt := Lt) hd orc order maxiter hs hm ho) as h.
  apply oks_inv in h as (r & e & f & l). exists r. split; [auto|]. split; [exact f|].
  intros hk hz. destruct (l hk hz) as (t & ht). apply treduce_bracketed in ht. exact ht.
Qed.
Print Assumptions C40_par_fasterpam.
Definition orc2 (l : list nat) := mkOracle (RSplit 2 RSeq RSeq) (fun _ _ => mkSched 2 l) (fun _ _ => RSeq).
Definition C40_par_case := C40_par_fasterpam (Lt := f64) _ 5 _ [0; 1] 10 [3; 0; 2] (orc2 [1; 0]) f1_diss s52 k52
  (fun j h => ltac:(simpl in h; lia)).

(** fastpam1 and the swap phase of pam: consistent as well, and the reported loss is the sum of the
    assigned dissimilarities unless the search stopped for numerical instability; then the sum is
    at least the reported loss. *)
Definition loss_or_less {Nt Lt} `{NumL Lt} `{FromN Nt Lt} (n : nat) (D : nat -> nat -> Nt) (r : pam_result Lt) : Prop :=
  r_loss r = left_sum (assigned_losses n D r) \/ lleb (r_loss r) (left_sum (assigned_losses n D r)) = true.

Theorem C40_fastpam1_pam {Nt Lt : Type} `{HO : OrdLaws Nt} `{HL : NumL Lt} `{HF : FromN Nt Lt}
    (M : Mat Nt) n D med maxiter :
  diss_matrix M n D -> sizes n (length med) -> medoids n (length med) med ->
  lfrom (nzero : Nt) = (lzero : Lt) -> lltb (lzero : Lt) lzero = false ->
  exists r1 r2 : pam_result Lt,
    fastpam1 M med maxiter = Ok r1 /\ pam_swap M med maxiter = Ok r2 /\
    well_assigned n (length med) (vals D) r1 /\ well_assigned n (length med) (vals D) r2 /\
    (2 <= length med -> loss_or_less n D r1 /\ loss_or_less n D r2).
Proof.
  intros hd hs hm hz hi.
  pose proof (fastpam1_fits (Lt := Lt) hd hi maxiter hs hm hz) as h1.
  pose proof (pam_swap_fits (Lt := Lt) hd hi maxiter hs hm hz) as h2.
  apply oks_inv in h1 as (r1 & e1 & f1 & l1). apply oks_inv in h2 as (r2 & e2 & f2 & l2).
  exists r1, r2. split; [exact e1|]. split; [exact e2|]. split; [exact f1|]. split; [exact f2|].
  assert (L : forall r, loss_known n D r -> loss_or_less n D r).
  { intros r (s & es & h). apply left_sum_reduce in es. unfold loss_or_less, assigned_losses.
    change (s = left_sum (assigned_losses n D r)) in es. unfold assigned_losses in es. rewrite <- es. exact h. }
  auto.
Qed.
Print Assumptions C40_fastpam1_pam.
Definition C40_fastpam1_case := C40_fastpam1_pam (Lt := f64) _ 5 _ [0; 1] 10 f1_diss s52 k52 eq_refl eq_refl.

(** The reported loss of fastpam1 and pam is not always that of the returned medoids. *)
Definition rows_f2 : list (list f64) := Eval vm_compute in map (map tenth)
  [[0; 9; 9; 3; 9]; [9; 0; 4; 1; 1]; [9; 4; 0; 6; 3]; [3; 1; 6; 0; 2]; [9; 1; 3; 2; 0]]%Z.
Theorem C40_loss_refuted : exists (M1 M2 : Mat f64) D1 D2 (r1 r2 : pam_result f64),
  diss_matrix M1 5 D1 /\ diss_matrix M2 5 D2 /\
  fastpam1 M1 [0; 1] 10 = Ok r1 /\ pam_swap M2 [0; 1] 10 = Ok r2 /\
  lltb (r_loss r1) (left_sum (assigned_losses 5 D1 r1)) = true /\
  lltb (r_loss r2) (left_sum (assigned_losses 5 D2 r2)) = true.
Proof.
  exists (mat_of_rows rows_f1), (mat_of_rows rows_f2), (fentries rows_f1), (fentries rows_f2).
  eexists. eexists.
  split; [apply f1_diss|]. split; [apply frows_diss; [lia|reflexivity]|].
  split; [vm_compute; reflexivity|]. split; [vm_compute; reflexivity|].
  split; vm_compute; reflexivity.
Qed.
Print Assumptions C40_loss_refuted.

(** In binary64, fasterpam may end with a larger loss than it started with (C05 fails). *)
Definition rows_f3 : list (list f64) := Eval vm_compute in map (map tenth)
  [[0; 4; 2; 3; 1]; [4; 0; 2; 3; 3]; [2; 2; 0; 3; 3]; [3; 3; 3; 0; 4]; [1; 3; 3; 4; 0]]%Z.
Theorem C40_fasterpam_monotone_refuted : exists (M : Mat f64) D (r0 r : pam_result f64),
  diss_matrix M 5 D /\ fasterpam M [0; 1] 0 = Ok r0 /\ fasterpam M [0; 1] 10 = Ok r /\
  lltb (r_loss r0) (r_loss r) = true.
Proof.
  exists (mat_of_rows rows_f3), (fentries rows_f3). eexists. eexists.
  split; [apply frows_diss; [lia|reflexivity]|].
  split; [vm_compute; reflexivity|]. split; vm_compute; reflexivity.
Qed.
Print Assumptions C40_fasterpam_monotone_refuted.

(** In binary64, the order in which the worker threads finish changes the medoids par_fasterpam
    returns (C13 fails). *)
Definition rows_f4 : list (list f64) := Eval vm_compute in map (map tenth)
  [[0; 4; 2]; [4; 0; 7]; [2; 7; 0]]%Z.
Theorem C40_schedule_refuted : exists (M : Mat f64) D (r1 r2 : pam_result f64),
  diss_matrix M 3 D /\
  par_fasterpam M (orc2 [0; 1]) [0; 1; 2] [0; 1] 10 = Ok r1 /\
  par_fasterpam M (orc2 [1; 0]) [0; 1; 2] [0; 1] 10 = Ok r2 /\
  In 0 (r_med r1) /\ ~ In 0 (r_med r2).
Proof.
  exists (mat_of_rows rows_f4), (fentries rows_f4). eexists. eexists.
  split; [apply frows_diss; [lia|reflexivity]|].
  split; [vm_compute; reflexivity|]. split; [vm_compute; reflexivity|].
  cbn. split; [auto|]. intros [h|[h|[]]]; discriminate h.
Qed.
Print Assumptions C40_schedule_refuted.

(** fastermsc with three or more medoids: consistent, and the result is exactly 1 - (sum of the
    ratios of nearest to second nearest dissimilarity) / n in the arithmetic of the loss type. *)
Definition is_second (v : diss) (med : list nat) (o a b : nat) : Prop :=
  b < length med /\ b <> a /\
  forall c, c < length med -> c <> a -> (v o (nth b med 0%nat) <= v o (nth c med 0%nat))%Q.
Definition float_ratio {Nt Lt} `{NumN Nt} `{NumL Lt} `{FromN Nt Lt} (a b : Nt) : Lt :=
  if orb (nis_zero a) (nis_zero b) then lzero else ldiv (lfrom a) (lfrom b).

Theorem C40_fastermsc {Nt Lt : Type} `{HO : OrdLaws Nt} `{HL : NumL Lt} `{HF : FromN Nt Lt}
    (M : Mat Nt) n D med maxiter :
  diss_matrix M n D -> sizes n (length med) -> medoids n (length med) med -> 3 <= length med ->
  exists r : pam_result Lt, fastermsc M med maxiter = Ok r /\
    well_assigned n (length med) (vals D) r /\
    exists sec, (forall o, o < n -> is_second (vals D) (r_med r) o (nth o (r_assi r) 0) (nth o sec 0)) /\
      r_loss r = lsub lone (ldiv (left_sum (map (fun o =>
        float_ratio (D o (nth (nth o (r_assi r) 0) (r_med r) 0)) (D o (nth (nth o sec 0) (r_med r) 0))) (seq 0 n)))
        (lfrom_u32 (N.of_nat n))).
Proof.
  intros hd hs hm hk. pose proof (fastermsc_fits (Lt := Lt) hd maxiter hs hm hk) as h.
  apply oks_inv in h as (r & e & f & sec & s & h1 & h2 & h3). exists r. split; [auto|]. split; [exact f|].
  exists sec. split; [exact h1|]. apply left_sum_reduce in h2. rewrite h3, h2. f_equal. f_equal. f_equal.
  unfold as_u32. apply N.mod_small. destruct hs as (_ & hs & _). lia.
Qed.
Print Assumptions C40_fastermsc.
Definition C40_fastermsc_case := C40_fastermsc (Lt := f64) _ 5 _ [0; 1; 2] 10 f1_diss s53 k53 (le_n 3).

(** fastermsc, fastmsc and the swap phase of PAMMEDSIL with two or more medoids: consistent, whatever the arithmetic of
    the loss type; with two medoids, fastermsc and fastmsc need that no two objects are at distance 0
    (C25_k2_empty_cluster_refuted). *)
Theorem C40_medoid_silhouette {Nt Lt : Type} `{HO : OrdLaws Nt} `{HL : NumL Lt} `{HF : FromN Nt Lt}
    (M : Mat Nt) n D med maxiter :
  diss_matrix M n D -> sizes n (length med) -> medoids n (length med) med -> 2 <= length med ->
  lltb (lzero : Lt) lzero = false -> lltb (lzero : Lt) (ladd lzero lzero) = false ->
  (exists r : pam_result Lt, pammedsil_swap M med maxiter = Ok r /\ well_assigned n (length med) (vals D) r) /\
  (3 <= length med \/ (forall i j, i < n -> j < n -> i <> j -> (0 < vals D i j)%Q) ->
   exists r1 r2 : pam_result Lt, fastermsc M med maxiter = Ok r1 /\ fastmsc M med maxiter = Ok r2 /\
     well_assigned n (length med) (vals D) r1 /\ well_assigned n (length med) (vals D) r2).
Proof.
  intros hd hs hm hk hi hz. split.
  - pose proof (pammedsil_swap_fits (Lt := Lt) hd hi maxiter hs hm hk) as h.
    apply oks_inv in h as (r & e & f). exists r. split; [exact e|exact f].
  - intros hc. destruct (Nat.eq_dec (length med) 2) as [e2|n2].
    + destruct hc as [hc|hc]; [lia|]. rewrite e2 in hs, hm |- *.
      pose proof (fastermsc_k2_fits (Lt := Lt) hd hc maxiter hs hm) as h1.
      pose proof (fastmsc_k2_fits (Lt := Lt) hd hc hz maxiter hs hm) as h2.
      apply oks_inv in h1 as (r1 & e1 & f1). apply oks_inv in h2 as (r2 & e2' & f2). exists r1, r2.
      split; [exact e1|]. split; [exact e2'|]. split; [exact f1|exact f2].
    + assert (h3 : 3 <= length med) by lia.
      pose proof (fastermsc_fits (Lt := Lt) hd maxiter hs hm h3) as h1.
      pose proof (fastmsc_fits (Lt := Lt) hd hi maxiter hs hm h3) as h2.
      apply oks_inv in h1 as (r1 & e1 & f1 & _). apply oks_inv in h2 as (r2 & e2' & f2). exists r1, r2.
      split; [exact e1|]. split; [exact e2'|]. split; [exact f1|exact f2].
Qed.
Print Assumptions C40_medoid_silhouette.
Definition C40_medoid_silhouette_case := C40_medoid_silhouette (Lt := f64) _ 5 _ [0; 1; 2] 10 f1_diss s53 k53 (le_S _ _ (le_n 2)) eq_refl eq_refl.
Definition C40_medoid_silhouette_two := C40_medoid_silhouette (Lt := f64) _ 5 _ [0; 1] 10 f1_diss s52 k52 (le_n 2) eq_refl eq_refl.
Lemma f1_distinct : forall i j, i < 5 -> j < 5 -> i <> j -> (0 < vals (fentries rows_f1) i j)%Q.
Proof.
  intros i j hi hj hne. do 5 (destruct i as [|i]; [do 5 (destruct j as [|j]; [try lia; vm_compute; reflexivity|]); lia|]). lia.
Qed.
