(** P_Bounded.v -- properties C43 and C44: losses of limited range or precision.  If
    [3 * n * m <= B], where [m] bounds the dissimilarities and the loss type is exact up to [B], then
    nothing overflows and nothing is rounded: the run is that with unbounded integers.
    Every theorem is followed by a concrete input which meets its hypotheses. *)
From Coq Require Import ZArith QArith Lqa Lia Permutation.
From Coq.Floats Require Import SpecFloat.
From Verif Require Import Base Num M_Mat M_Util M_Fasterpam M_Pam M_Alternating M_ParFasterpam Inst Hoare Spec
  Laws FloatFacts ParFacts Bounded FloatExact Adapter BoundedMain Ex P_Fasterpam P_Pam P_Adapter P_Float.
Open Scope nat_scope.

(** both runs return, with the same clustering and counters and corresponding losses *)
Definition agree {Lt} (rep : Lt -> Z -> Prop) (x : res (pam_result Lt)) (y : res (pam_result Z)) : Prop :=
  exists r rz, x = Ok r /\ y = Ok rz /\ r_med r = r_med rz /\ r_assi r = r_assi rz /\ r_iter r = r_iter rz /\
    r_swaps r = r_swaps rz /\ rep (r_loss r) (r_loss rz).

Lemma rr_agree {Nt Lt} (M : Mat Nt) m (rep : Lt -> Z -> Prop) x y rz :
  rr (same_result M m rep) x y -> y = Ok rz -> agree rep x y.
Proof.
  intros h ->. destruct x as [r|p]; [|destruct h]. destruct h as (h1 & h2 & h3 & h4 & h5 & _).
  exists r, rz. auto 10.
Qed.

(** C43.  All algorithms of the PAM family. *)
Theorem C43_same_run {Nt Lt : Type} `{HN : NumN Nt} `{HO : !OrdLaws Nt} `{HFZ : FromN Nt Z} `{HLZ : !LossLaws Nt Z}
    `{HL : NumL Lt} `{HF : FromN Nt Lt} (B m : Z) (rep : Lt -> Z -> Prop) (val : Lt -> Q)
    (M : Mat Nt) n D med maxiter order orc :
  BoundLaws B rep val -> diss_matrix M n D ->
  (forall x y, x < n -> y < n -> (lfrom (D x y) <= m)%Z) -> (3 * Z.of_nat n * m <= B)%Z ->
  sizes n (length med) -> (forall x, In x med -> x < n) -> (forall j, In j order -> j < n) -> valid_oracle orc ->
  agree rep (fasterpam (Lt := Lt) M med maxiter) (fasterpam (Lt := Z) M med maxiter) /\
  agree rep (rand_fasterpam (Lt := Lt) M order med maxiter) (rand_fasterpam (Lt := Z) M order med maxiter) /\
  agree rep (par_fasterpam (Lt := Lt) M orc order med maxiter) (par_fasterpam (Lt := Z) M orc order med maxiter) /\
  agree rep (fastpam1 (Lt := Lt) M med maxiter) (fastpam1 (Lt := Z) M med maxiter) /\
  agree rep (pam_swap (Lt := Lt) M med maxiter) (pam_swap (Lt := Z) M med maxiter) /\
  agree rep (alternating (Lt := Lt) M med maxiter) (alternating (Lt := Z) M med maxiter).
Proof.
  intros HB hd hm hb hs hin ho hor. assert (hn : 1 <= n) by (destruct hs; lia).
  pose proof (restrict_matrix n D) as h0.
  destruct (C38_pam_family (Lt := Lt) M (restrict n D) n D med maxiter order orc (proj1 hd) h0 hs hin ho (rep_lt0 HB))
    as (-> & -> & -> & -> & -> & ->).
  destruct (C38_pam_family (Lt := Z) (HL := NumL_Z) M (restrict n D) n D med maxiter order orc (proj1 hd) h0 hs hin ho eq_refl)
    as (-> & -> & -> & -> & -> & ->).
  destruct (C09_no_panic (Lt := Z) (HL := NumL_Z) (restrict n D) n D med maxiter order orc h0 hs hin ho eq_refl)
    as ((r1 & e1 & _) & (r2 & e2 & _) & (r3 & e3 & _) & (r4 & e4 & _) & (r5 & e5 & _) & (r6 & e6 & _)).
  pose proof (okd_get HB hd hn hm hb) as hg. pose proof (okd_zero HB hd hn hm hb) as hz.
  pose proof (bl_repr HB) as hr.
  split; [|split; [|split; [|split; [|split]]]]; (eapply rr_agree; [|eassumption]).
  - eapply fasterpam_order_rr; [exact hr|exact hg|exact hz|exact hb].
  - eapply fasterpam_order_rr; [exact hr|exact hg|exact hz|exact hb].
  - eapply par_fasterpam_rr; [exact hr|exact hg|exact hz|exact hb|exact hor].
  - eapply fastpam1_rr; [exact hr|exact hg|exact hz|exact hb].
  - eapply pam_swap_rr; [exact hr|exact hg|exact hz|exact hb].
  - eapply alternating_rr; [exact hr|exact hg|exact hz|exact hb].
Qed.
Print Assumptions C43_same_run.

Theorem C43_same_build {Nt Lt : Type} `{HN : NumN Nt} `{HO : !OrdLaws Nt} `{HFZ : FromN Nt Z} `{HLZ : !LossLaws Nt Z}
    `{HL : NumL Lt} `{HF : FromN Nt Lt} (B m : Z) (rep : Lt -> Z -> Prop) (val : Lt -> Q)
    (M : Mat Nt) n D k maxiter :
  BoundLaws B rep val -> diss_matrix M n D ->
  (forall x y, x < n -> y < n -> (lfrom (D x y) <= m)%Z) -> (3 * Z.of_nat n * m <= B)%Z -> sizes n k ->
  agree rep (pam (Lt := Lt) M k maxiter) (pam (Lt := Z) M k maxiter) /\
  exists loss lossz assi meds, pam_build (Lt := Lt) M k = Ok (loss, assi, meds) /\
    pam_build (Lt := Z) M k = Ok (lossz, assi, meds) /\ rep loss lossz.
Proof.
  intros HB hd hm hb hs. assert (hn : 1 <= n) by (destruct hs; lia).
  pose proof (restrict_matrix n D) as h0.
  destruct (C38_build (Lt := Lt) M (restrict n D) n D k maxiter (proj1 hd) h0 hs (rep_lt0 HB) (rep_le0 HB)) as (-> & -> & _).
  destruct (C38_build (Lt := Z) (HL := NumL_Z) M (restrict n D) n D k maxiter (proj1 hd) h0 hs eq_refl eq_refl) as (-> & -> & _).
  destruct (C09_pam_no_panic (Lt := Z) (HL := NumL_Z) (restrict n D) n D k maxiter h0 hs eq_refl) as ((r1 & e1 & _) & (l & a & ms & e2 & _)).
  pose proof (okd_get HB hd hn hm hb) as hg. pose proof (okd_zero HB hd hn hm hb) as hz.
  pose proof (bl_repr HB) as hr. split.
  - eapply rr_agree; [|exact e1]. eapply pam_rr; [exact hr|exact hg|exact hz|exact hb].
  - assert (h : rr (fun r r' => snd r = snd r' /\ snd (fst r) = snd (fst r') /\ bd rep (Z.of_nat n * m) (fst (fst r)) (fst (fst r')))
      (pam_build (Lt := Lt) (restrict n D) k) (pam_build (Lt := Z) (restrict n D) k)).
    { eapply pam_build_rr; [exact hr|exact hg|exact hz|exact hb]. }
    rewrite e2 in h.
    destruct (pam_build (Lt := Lt) (restrict n D) k) as [[[l' a'] ms']|p]; cbn [rr fst snd] in h; [|destruct h].
    destruct h as (-> & -> & h & _). exists l', l, a, ms. auto.
Qed.
Print Assumptions C43_same_build.

(** what this means for fasterpam, in terms of the matrix only *)
Definition exact_optimum {Lt} (val : Lt -> Q) (v : diss) (n k maxiter : nat) (med : list nat) (r : pam_result Lt) : Prop :=
  medoids n k (r_med r) /\
  length (r_assi r) = n /\ (forall o, o < n -> nearest v o (r_med r) (nth o (r_assi r) 0)) /\
  (val (r_loss r) == assigned_cost v n (r_med r) (r_assi r))%Q /\
  (val (r_loss r) == tdev v n (r_med r))%Q /\
  (val (r_loss r) <= tdev v n med)%Q /\
  (0 < r_swaps r -> (val (r_loss r) < tdev v n med)%Q) /\
  r_swaps r < n ^ k /\
  (r_iter r < maxiter -> swap_optimal v n (r_med r)).

Theorem C43_fasterpam {Nt Lt : Type} `{HN : NumN Nt} `{HO : !OrdLaws Nt} `{HFZ : FromN Nt Z} `{HLZ : !LossLaws Nt Z}
    `{HL : NumL Lt} `{HF : FromN Nt Lt} (B m : Z) (rep : Lt -> Z -> Prop) (val : Lt -> Q)
    (M : Mat Nt) n D med maxiter order orc :
  BoundLaws B rep val -> diss_matrix M n D ->
  (forall x y, x < n -> y < n -> (lfrom (D x y) <= m)%Z) -> (3 * Z.of_nat n * m <= B)%Z ->
  sizes n (length med) -> medoids n (length med) med -> 2 <= length med \/ symmetric n (vals D) ->
  Permutation order (seq 0 n) -> valid_oracle orc ->
  exists r r' : pam_result Lt, rand_fasterpam M order med maxiter = Ok r /\
    exact_optimum val (vals D) n (length med) maxiter med r /\
    par_fasterpam M orc order med maxiter = Ok r' /\
    r_med r' = r_med r /\ r_assi r' = r_assi r /\ r_iter r' = r_iter r /\ r_swaps r' = r_swaps r /\
    (val (r_loss r') == val (r_loss r))%Q.
Proof.
  intros HB hd hm hb hs hme hk hp hor.
  assert (ho : forall j, In j order -> j < n).
  { intros j hj. apply (Permutation_in _ hp) in hj. apply in_seq in hj. lia. }
  destruct (C43_same_run B m rep val M n D med maxiter order orc HB hd hm hb hs (proj2 (proj2 hme)) ho hor)
    as (_ & (r & rz & e & ez & a1 & a2 & a3 & a4 & a5) & (r' & rz' & e' & ez' & b1 & b2 & b3 & b4 & b5) & _).
  destruct (C12_rand_fasterpam (Lt := Z) M n D order med maxiter hd hs hme hk hp)
    as (q & eq & c1 & c2 & c3 & c4 & c5 & c6 & c7 & c8 & c9 & c10 & c11 & c12 & c13).
  destruct (C13_schedule_independent (Lt := Z) M n D orc order med maxiter hd hs hme ho hor)
    as (q1 & q2 & d1 & d2 & d3 & d4 & d5 & d6 & d7).
  rewrite ez in eq, d1. injection eq as <-. injection d1 as <-. rewrite ez' in d2. injection d2 as <-.
  apply (bl_val HB) in a5, b5.
  exists r, r'. split; [exact e|]. split.
  - unfold exact_optimum. rewrite a1, a2, a3, a4, a5. auto 12.
  - split; [exact e'|]. rewrite b1, b2, b3, b4, b5, a1, a2, a3, a4, a5, d3, d4, d5, d6, d7. auto 10 using Qeq_refl.
Qed.
Print Assumptions C43_fasterpam.

(** For machine integers.  With [w = 64] or [w = 32] bits: losses of type [i64] or [i32]. *)
Theorem C43_machine_integers (w m : Z) (M : Mat Z) n D med maxiter order orc :
  (1 <= w)%Z -> diss_matrix M n D ->
  (forall x y, x < n -> y < n -> (D x y <= m)%Z) -> (3 * Z.of_nat n * m <= 2 ^ (w - 1) - 1)%Z ->
  sizes n (length med) -> medoids n (length med) med -> 2 <= length med \/ symmetric n (vals D) ->
  Permutation order (seq 0 n) -> valid_oracle orc ->
  exists r r' : pam_result (mint w), rand_fasterpam M order med maxiter = Ok r /\
    exact_optimum (fun a => inject_Z (ival a)) (vals D) n (length med) maxiter med r /\
    par_fasterpam M orc order med maxiter = Ok r' /\
    r_med r' = r_med r /\ r_assi r' = r_assi r /\ r_iter r' = r_iter r /\ r_swaps r' = r_swaps r /\
    (inject_Z (ival (r_loss r')) == inject_Z (ival (r_loss r)))%Q.
Proof.
  intros hw hd hm hb. exact (C43_fasterpam (imax w) m int_rep _ M n D med maxiter order orc (mint_laws hw) hd hm hb).
Qed.
Print Assumptions C43_machine_integers.

Lemma d6_max : forall x y, x < 6 -> y < 6 -> (d6 x y <= 7)%Z.
Proof.
  assert (h : forallb (fun x => forallb (fun y => (d6 x y <=? 7)%Z) (seq 0 6)) (seq 0 6) = true) by reflexivity.
  intros x y hx hy. pose proof (forallb_seq _ h hx) as h1. pose proof (forallb_seq _ h1 hy) as h2. apply Z.leb_le. exact h2.
Qed.

(** a loss of type [i8]: 3 * 6 * 7 = 126 <= 127 *)
Definition C43_same_case := C43_same_run 127 7 int_rep _ m6 6 d6 [0; 1; 3] 10 [3; 5; 0; 1; 4; 2] P_Pam.orc2 (mint_laws (w := 8) ltac:(lia))
  m6_diss d6_max ltac:(simpl; lia) s63 (proj2 (proj2 k63)) (fun j h => ltac:(simpl in h; lia)) P_Pam.orc2_ok.
Definition C43_build_case := C43_same_build 127 7 int_rep _ m6 6 d6 3 10 (mint_laws (w := 8) ltac:(lia))
  m6_diss d6_max ltac:(simpl; lia) s63.
Definition C43_case := C43_machine_integers 8 7 m6 6 d6 [0; 1; 3] 10 [3; 5; 0; 1; 4; 2] P_Pam.orc2 ltac:(lia) m6_diss d6_max
  ltac:(simpl; lia) s63 k63 (or_introl le23) perm6 P_Pam.orc2_ok.
Example C43_value : fasterpam (Lt := mint 8) m6 [0; 1; 3] 10 = Ok (mkPR (MInt 1) [1; 1; 0; 2; 0; 0] 2 2 [4; 1; 3]).
Proof. vm_compute. reflexivity. Qed.

(** Without the bound the loss wraps around: four objects, dissimilarities of 100, type [i8].  PAM
    reports the loss -56 for a clustering which costs 100. *)
Definition rows_of : list (list Z) :=
  [[0; 100; 100; 100]; [100; 0; 100; 100]; [100; 100; 0; 0]; [100; 100; 0; 0]]%Z.
Theorem C43_overflow_refuted : exists (M : Mat Z) D (r : pam_result (mint 8)),
  diss_matrix M 4 D /\ (forall x y, x < 4 -> y < 4 -> (D x y <= 100)%Z) /\ medoids 4 2 [0; 1] /\
  pam_swap M [0; 1] 10 = Ok r /\ ival (r_loss r) = (-56)%Z /\
  (assigned_cost (vals D) 4 (r_med r) (r_assi r) == 100)%Q.
Proof.
  exists (mat_of_rows rows_of), (entries rows_of), (mkPR (MInt (-56)) [1; 1; 0; 0] 1 1 [2; 1]).
  split; [apply rows_diss; [lia|reflexivity]|]. split.
  - assert (h : forallb (fun x => forallb (fun y => (entries rows_of x y <=? 100)%Z) (seq 0 4)) (seq 0 4) = true) by reflexivity.
    intros x y hx hy. pose proof (forallb_seq _ h hx) as h1. pose proof (forallb_seq _ h1 hy) as h2. apply Z.leb_le. exact h2.
  - split; [apply meds_ok; reflexivity|]. split; [vm_compute; reflexivity|]. split; vm_compute; reflexivity.
Qed.
Print Assumptions C43_overflow_refuted.

(** C44.  binary64 dissimilarities that are multiples of [2^g] (integers: [g = 0]) up to [m * 2^g]:
    no rounding as long as [3 * n * m <= 2^53]. *)
Definition on_grid (g m : Z) (n : nat) (D : nat -> nat -> f64) : Prop :=
  forall x y, x < n -> y < n -> f64_finite (D x y) /\
    exists z, (0 <= z <= m)%Z /\ (f64_val (D x y) == inject_Z z * 2 ^ g)%Q.

Lemma grid_entry g m n D x y : on_grid g m n D -> x < n -> y < n ->
  exists z, (0 <= z <= m)%Z /\ f64_grid g (D x y) z.
Proof. intros h hx hy. destruct (h x y hx hy) as (h1 & z & h2 & h3). exists z. split; [exact h2|]. split; assumption. Qed.

Lemma grid_diss g m (hg : (-1074 <= g <= 970)%Z) M n D : is_matrix M n D -> (forall x, x < n -> D x x = S754_zero false) ->
  on_grid g m n D -> @diss_matrix f64 NumN_f64 (OrdLaws_grid hg) M n D.
Proof.
  intros h1 h2 h3. split; [exact h1|]. split; [exact h2|]. intros x y hx hy.
  destruct (grid_entry g m n D x y h3 hx hy) as (z & hz & h). split; [exists z; exact h|].
  unfold vals. cbn [vN OrdLaws_grid]. rewrite (proj2 h). pose proof (pow2_pos g) as p.
  apply Qmult_le_0_compat; [|lra]. change 0%Q with (inject_Z 0). rewrite <- Zle_Qle. lia.
Qed.

Lemma grid_max g m n D x y : on_grid g m n D -> x < n -> y < n -> (@lfrom _ _ (FromN_grid g) (D x y) <= m)%Z.
Proof. intros h hx hy. destruct (grid_entry g m n D x y h hx hy) as (z & hz & h'). rewrite (grid_int h'). lia. Qed.

Theorem C44_f64_exact (g m : Z) (M : Mat f64) n D med maxiter order orc :
  (-1074 <= g <= 970)%Z -> is_matrix M n D -> (forall x, x < n -> D x x = S754_zero false) -> on_grid g m n D ->
  (3 * Z.of_nat n * m <= 2 ^ 53)%Z ->
  sizes n (length med) -> medoids n (length med) med ->
  let v := fun x y => f64_val (D x y) in
  2 <= length med \/ symmetric n v -> Permutation order (seq 0 n) -> valid_oracle orc ->
  exists r r' : pam_result f64, rand_fasterpam M order med maxiter = Ok r /\
    exact_optimum f64_val v n (length med) maxiter med r /\
    par_fasterpam M orc order med maxiter = Ok r' /\
    r_med r' = r_med r /\ r_assi r' = r_assi r /\ r_iter r' = r_iter r /\ r_swaps r' = r_swaps r /\
    (f64_val (r_loss r') == f64_val (r_loss r))%Q.
Proof.
  intros hg h1 h2 h3 hb hs hm v hk hp hor.
  exact (@C43_fasterpam f64 f64 NumN_f64 (OrdLaws_grid hg) (FromN_grid g) (LossLaws_grid hg) _ _ (2 ^ 53) m (f64_grid g) f64_val
    M n D med maxiter order orc (grid_laws hg) (grid_diss g m hg M n D h1 h2 h3) (fun x y => grid_max g m n D x y h3) hb hs hm hk hp hor).
Qed.
Print Assumptions C44_f64_exact.

(** FastPAM1, PAM, BUILD and Alternating *)
Theorem C44_f64_pam (g m : Z) (M : Mat f64) n D med maxiter :
  (-1074 <= g <= 970)%Z -> is_matrix M n D -> (forall x, x < n -> D x x = S754_zero false) -> on_grid g m n D ->
  (3 * Z.of_nat n * m <= 2 ^ 53)%Z ->
  sizes n (length med) -> medoids n (length med) med ->
  let v := fun x y => f64_val (D x y) in
  2 <= length med \/ symmetric n v ->
  exists r r' : pam_result f64, fastpam1 M med maxiter = Ok r /\ pam_swap M med maxiter = Ok r' /\
    r_med r' = r_med r /\ r_assi r' = r_assi r /\ r_iter r' = r_iter r /\ r_swaps r' = r_swaps r /\
    exact_optimum f64_val v n (length med) maxiter med r /\
    exact_optimum f64_val v n (length med) maxiter med r'.
Proof.
  intros hg h1 h2 h3 hb hs hm v hk. pose proof (grid_diss g m hg M n D h1 h2 h3) as hd.
  assert (hor : valid_oracle (mkOracle RSeq (fun _ _ => mkSched 1 [0]) (fun _ _ => RSeq))).
  { intros i j. cbn. split; [lia|apply Permutation_refl]. }
  destruct (@C43_same_run f64 f64 NumN_f64 (OrdLaws_grid hg) (FromN_grid g) (LossLaws_grid hg) _ _ (2 ^ 53) m (f64_grid g) f64_val
    M n D med maxiter [] _ (grid_laws hg) hd (fun x y => grid_max g m n D x y h3) hb hs (proj2 (proj2 hm)) (fun j h => match h with end) hor)
    as (_ & _ & _ & (r & rz & e & ez & a1 & a2 & a3 & a4 & a5) & (r' & rz' & e' & ez' & b1 & b2 & b3 & b4 & b5) & _).
  destruct (@C14_steepest_descent f64 Z NumN_f64 (OrdLaws_grid hg) NumL_Z (FromN_grid g) (LossLaws_grid hg) M n D med maxiter hd hs hm hk)
    as (q & f & f' & c1 & c2 & c3 & c4 & c5 & c6 & c7 & c8 & c9 & c10 & c11 & c12 & c13 & _).
  rewrite ez in f. injection f as <-. rewrite ez' in f'. injection f' as ->.
  apply proj2 in a5, b5.
  exists r, r'. split; [exact e|]. split; [exact e'|].
  rewrite b1, b2, b3, b4, a1, a2, a3, a4. do 4 (split; [reflexivity|]).
  unfold exact_optimum. rewrite b1, b2, b3, b4, b5, a1, a2, a3, a4, a5. auto 20.
Qed.
Print Assumptions C44_f64_pam.

Theorem C44_f64_alternating (g m : Z) (M : Mat f64) n D med maxiter :
  (-1074 <= g <= 970)%Z -> is_matrix M n D -> (forall x, x < n -> D x x = S754_zero false) -> on_grid g m n D ->
  (3 * Z.of_nat n * m <= 2 ^ 53)%Z ->
  sizes n (length med) -> medoids n (length med) med ->
  let v := fun x y => f64_val (D x y) in
  exists r : pam_result f64, alternating M med maxiter = Ok r /\
    (f64_val (r_loss r) == assigned_cost v n (r_med r) (r_assi r))%Q /\
    (f64_val (r_loss r) == tdev v n (r_med r))%Q /\
    (symmetric n v -> (f64_val (r_loss r) <= tdev v n med)%Q /\ r_iter r <= n ^ length med) /\
    (r_iter r < maxiter -> forall c j, c < length med -> j < n -> nth j (r_assi r) 0 = c ->
       (cluster_cost v n (r_assi r) c (nth c (r_med r) 0%nat) <= cluster_cost v n (r_assi r) c j)%Q).
Proof.
  intros hg h1 h2 h3 hb hs hm v. pose proof (grid_diss g m hg M n D h1 h2 h3) as hd.
  assert (hor : valid_oracle (mkOracle RSeq (fun _ _ => mkSched 1 [0]) (fun _ _ => RSeq))).
  { intros i j. cbn. split; [lia|apply Permutation_refl]. }
  destruct (@C43_same_run f64 f64 NumN_f64 (OrdLaws_grid hg) (FromN_grid g) (LossLaws_grid hg) _ _ (2 ^ 53) m (f64_grid g) f64_val
    M n D med maxiter [] _ (grid_laws hg) hd (fun x y => grid_max g m n D x y h3) hb hs (proj2 (proj2 hm)) (fun j h => match h with end) hor)
    as (_ & _ & _ & _ & _ & (r & rz & e & ez & a1 & a2 & a3 & a4 & a5)).
  pose proof (@C18_alternating_consistent f64 Z NumN_f64 (OrdLaws_grid hg) NumL_Z (FromN_grid g) (LossLaws_grid hg) M n D med maxiter hd hs hm) as C18.
  pose proof (@C19_alternating_monotone f64 Z NumN_f64 (OrdLaws_grid hg) NumL_Z (FromN_grid g) (LossLaws_grid hg) M n D med maxiter hd hs hm) as C19.
  pose proof (@C19_alternating_fixpoint f64 Z NumN_f64 (OrdLaws_grid hg) NumL_Z (FromN_grid g) (LossLaws_grid hg) M n D med maxiter hd hs hm) as C19f.
  rewrite ez in C18, C19, C19f.
  destruct C18 as (q & [= <-] & _ & _ & _ & _ & c5 & c6 & _).
  destruct C19f as (q & [= <-] & d1).
  apply proj2 in a5. exists r. split; [exact e|]. rewrite a5, a1, a2, a3.
  split; [exact c5|]. split; [exact c6|]. split.
  - intros hsy. destruct (C19 hsy) as (q & [= <-] & f1 & f2 & _). split; assumption.
  - intros hlt. exact (proj1 (d1 hlt)).
Qed.
Print Assumptions C44_f64_alternating.

Theorem C44_f64_build (g m : Z) (M : Mat f64) n D k maxiter :
  (-1074 <= g <= 970)%Z -> is_matrix M n D -> (forall x, x < n -> D x x = S754_zero false) -> on_grid g m n D ->
  (3 * Z.of_nat n * m <= 2 ^ 53)%Z -> sizes n k ->
  let v := fun x y => f64_val (D x y) in
  exists (loss : f64) assi meds (r : pam_result f64), pam_build M k = Ok (loss, assi, meds) /\
    1 <= length meds <= k /\ NoDup meds /\ greedy v n meds /\
    (f64_val loss == tdev v n meds)%Q /\ (f64_val loss == assigned_cost v n meds assi)%Q /\
    pam M k maxiter = Ok r /\ (2 <= length meds \/ symmetric n v ->
      exact_optimum f64_val v n (length meds) maxiter meds r).
Proof.
  intros hg h1 h2 h3 hb hs v. pose proof (grid_diss g m hg M n D h1 h2 h3) as hd.
  destruct (@C43_same_build f64 f64 NumN_f64 (OrdLaws_grid hg) (FromN_grid g) (LossLaws_grid hg) _ _ (2 ^ 53) m (f64_grid g) f64_val
    M n D k maxiter (grid_laws hg) hd (fun x y => grid_max g m n D x y h3) hb hs)
    as ((r & rz & e & ez & a1 & a2 & a3 & a4 & a5) & (loss & lossz & assi & meds & eb & ebz & b5)).
  destruct (@C16_pam_build f64 Z NumN_f64 (OrdLaws_grid hg) NumL_Z (FromN_grid g) (LossLaws_grid hg) M n D k hd hs)
    as (l & a & ms & f & c1 & c2 & c3 & c4 & c5 & c6 & c7 & c8 & c9). rewrite ebz in f. injection f as <- <- <-.
  destruct (@C17_pam_is_build_swap f64 Z NumN_f64 (OrdLaws_grid hg) NumL_Z (FromN_grid g) (LossLaws_grid hg) M n D k maxiter hd hs)
    as (p & p' & l & a & ms & f1 & f2 & f3 & g1 & g2 & g3 & g4 & g5 & g6).
  rewrite ez in f1. injection f1 as <-. rewrite ebz in f2. injection f2 as <- <- <-.
  assert (hs' : sizes n (length meds)) by (destruct hs as (s1 & s2 & s3); split; [lia|split; [auto|lia]]).
  assert (hm' : medoids n (length meds) meds) by (split; [auto|split; auto]).
  exists loss, assi, meds, r. apply proj2 in a5, b5. split; [exact eb|]. split; [exact c1|]. split; [exact c2|].
  split; [exact c4|]. split; [rewrite b5; exact c5|]. split; [rewrite b5; exact c6|]. split; [exact e|]. intros hk.
  destruct (@C14_steepest_descent f64 Z NumN_f64 (OrdLaws_grid hg) NumL_Z (FromN_grid g) (LossLaws_grid hg) M n D meds maxiter hd hs' hm' hk)
    as (q & _ & f' & d1 & d2 & d3 & d4 & d5 & d6 & d7 & d8 & d9 & d10 & d11 & d12 & d13 & _).
  rewrite f3 in f'. injection f' as ->. cbn [vL LossLaws_grid] in *.
  unfold exact_optimum. rewrite a1, a2, a3, a4, a5, g1, g2, g3, g4. rewrite <- g5 in *. auto 20.
Qed.
Print Assumptions C44_f64_build.

(** quarters: the matrix of [m6] divided by 4 *)
Definition quarter (z : Z) : f64 := SFdiv fprec femax (f64_of_Z z) (f64_of_Z 4).
Definition rows_q : list (list f64) := Eval vm_compute in map (map quarter) rows6.
Definition on_grid_b (g m : Z) (x : f64) : bool :=
  f64_b x && match x with
             | S754_zero _ => (0 <=? m)%Z
             | S754_finite false p e => (e <=? g)%Z && (Zpos p mod 2 ^ (g - e) =? 0)%Z && (Zpos p / 2 ^ (g - e) <=? m)%Z
             | _ => false
             end.
Lemma q_matrix : is_matrix (mat_of_rows rows_q) 6 (fentries rows_q).
Proof. apply (frows_diss 6 rows_q); [lia|reflexivity]. Qed.
Lemma q_diag x : x < 6 -> fentries rows_q x x = S754_zero false.
Proof. apply (frows_diss 6 rows_q); [lia|reflexivity]. Qed.
Lemma grid_rows g m n rows : forallb (fun x => forallb (fun y => on_grid_b g m (fentries rows x y)) (seq 0 n)) (seq 0 n) = true ->
  on_grid g m n (fentries rows).
Proof.
  intros h x y hx hy. pose proof (forallb_seq _ h hx) as h1. pose proof (forallb_seq _ h1 hy) as h2. cbv beta in h2. clear h h1.
  unfold on_grid_b in h2. destruct (fentries rows x y) as [s|s| |[|] p e]; try discriminate h2.
  - split; [exact I|]. exists 0%Z. split; [lia|reflexivity].
  - apply andb_true_iff in h2 as [h2 h3]. apply andb_true_iff in h3 as [h3 h5]. apply andb_true_iff in h3 as [h3 h4].
    cbn [f64_b negb andb] in h2. apply Z.leb_le in h3, h5. apply Z.eqb_eq in h4. split; [exact h2|].
    exists (Zpos p / 2 ^ (g - e))%Z. assert (hp : (0 < 2 ^ (g - e))%Z) by (apply Z.pow_pos_nonneg; lia).
    split; [split; [apply Z.div_pos; lia|exact h5]|]. cbn [f64_val].
    apply (@scaled_eq (Zpos p) e _ g e); [apply Z.le_refl|exact h3|]. rewrite Z.sub_diag, Z.pow_0_r, Z.mul_1_r.
    rewrite (Z.div_mod (Zpos p) (2 ^ (g - e))) at 1 by lia. rewrite h4. lia.
Qed.
Lemma q_grid : on_grid (-2)%Z 7%Z 6 (fentries rows_q).
Proof. apply grid_rows. vm_compute. reflexivity. Qed.
Definition C44_case := C44_f64_exact (-2)%Z 7%Z (mat_of_rows rows_q) 6 (fentries rows_q) [0; 1; 3] 10 [3; 5; 0; 1; 4; 2] P_Pam.orc2
  ltac:(lia) q_matrix q_diag q_grid ltac:(simpl; lia) s63 k63 (or_introl le23) perm6 orc2_ok.
Definition C44_pam_case := C44_f64_pam (-2)%Z 7%Z (mat_of_rows rows_q) 6 (fentries rows_q) [0; 1; 3] 10
  ltac:(lia) q_matrix q_diag q_grid ltac:(simpl; lia) s63 k63 (or_introl le23).
Definition C44_alternating_case := C44_f64_alternating (-2)%Z 7%Z (mat_of_rows rows_q) 6 (fentries rows_q) [0; 1; 3] 10
  ltac:(lia) q_matrix q_diag q_grid ltac:(simpl; lia) s63 k63.
Definition C44_build_case := C44_f64_build (-2)%Z 7%Z (mat_of_rows rows_q) 6 (fentries rows_q) 3 10
  ltac:(lia) q_matrix q_diag q_grid ltac:(simpl; lia) s63.
Example C44_value : exists r : pam_result f64, fasterpam (mat_of_rows rows_q) [0; 1; 3] 10 = Ok r /\
  r_med r = [4; 1; 3] /\ (f64_val (r_loss r) == 1 # 4)%Q.
Proof. eexists. split; [vm_compute; reflexivity|]. split; reflexivity. Qed.

(** Integer dissimilarities ([i32], [u32]) with [f64] losses. *)
Theorem C44_integers_f64 (m : Z) (M : Mat Z) n D med maxiter order orc :
  diss_matrix M n D ->
  (forall x y, x < n -> y < n -> (D x y <= m)%Z) -> (3 * Z.of_nat n * m <= 2 ^ 53)%Z ->
  sizes n (length med) -> medoids n (length med) med -> 2 <= length med \/ symmetric n (vals D) ->
  Permutation order (seq 0 n) -> valid_oracle orc ->
  exists r r' : pam_result f64, rand_fasterpam M order med maxiter = Ok r /\
    exact_optimum f64_val (vals D) n (length med) maxiter med r /\
    par_fasterpam M orc order med maxiter = Ok r' /\
    r_med r' = r_med r /\ r_assi r' = r_assi r /\ r_iter r' = r_iter r /\ r_swaps r' = r_swaps r /\
    (f64_val (r_loss r') == f64_val (r_loss r))%Q.
Proof.
  intros hd hm hb. exact (C43_fasterpam (2 ^ 53) m (f64_grid 0) f64_val M n D med maxiter order orc Z_f64_laws hd hm hb).
Qed.
Print Assumptions C44_integers_f64.
Definition C44_integers_case := C44_integers_f64 7%Z m6 6 d6 [0; 1; 3] 10 [3; 5; 0; 1; 4; 2] P_Pam.orc2 m6_diss d6_max
  ltac:(simpl; lia) s63 k63 (or_introl le23) perm6 orc2_ok.
