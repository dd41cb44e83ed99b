(** P_FloatMsc.v -- property C63: how good the medoids are at which the algorithms for the medoid
    silhouette stop in binary64.  Every theorem is followed by a concrete input which meets its
    hypotheses. *)
From Coq Require Import ZArith QArith Qabs Lqa Lia.
From Coq.Floats Require Import SpecFloat.
From Verif Require Import Base Num M_Mat M_Util M_Fasterpam M_Silhouette M_Msc M_Pammedsil Inst Hoare Spec SpecFacts Laws
  FloatFacts FloatRound SilFacts PamShape PamExact PamFacts MscShape MscExact MscFacts MscK2 FloatMain FloatSil FloatMsc FloatMsc2 FloatMono
  TermFloat Ex P_Fasterpam P_Pam P_Float P_Bounded P_Rounding P_Term P_FloatOpt.
Open Scope nat_scope.

(** no swap of one medoid with another object raises the average medoid silhouette by more than [e] *)
Definition nearly_sil (v : diss) (n : nat) (med : list nat) (e : Q) : Prop :=
  forall b j, b < length med -> j < n -> ~ In j med -> (med_sil v n (swap med b j) <= med_sil v n med + e)%Q.
(** the error made by rounding *)
Definition sil_error (n : nat) : Q := (inject_Z (Z.of_nat n) * 2 ^ (-44))%Q.
(** and with dissimilarities of a type whose sums are less precise: [serr] is [2^-53] for [f64] *)
Definition sil_errors {U : SumErr} (n : nat) : Q := (sil_error n + 128 * (serr - 2 ^ (-53)))%Q.
(** The returned medoids are nearly optimal, or are one swap away from nearly optimal ones and have
    nearly the same average silhouette; the returned silhouette is nearly that one. *)
Definition stops_sil (v : diss) (n k : nat) (e : Q) (r : pam_result f64) : Prop :=
  exists med0, medoids n k med0 /\ nearly_sil v n med0 e /\
    (r_med r = med0 \/ exists b j, b < k /\ j < n /\ ~ In j med0 /\ r_med r = swap med0 b j) /\
    (Qabs (med_sil v n (r_med r) - med_sil v n med0) <= e)%Q /\ off_by e (med_sil v n med0) (r_loss r).
(** a pass which did not raise the computed silhouette *)
Definition stalled_sil (run : nat -> res (pam_result f64)) (r : pam_result f64) : Prop :=
  exists i r0, r_iter r = S i /\ run i = Ok r0 /\ (f64_val (r_loss r) <= f64_val (r_loss r0))%Q.

Section Units.
  Context {U : SumErr} {Nt : Type} `{HO : OrdLaws Nt}.
  Variables (n : nat) (D : nat -> nat -> Nt).
  Hypothesis Hn : 1 <= n.
  Local Notation v := (vals D).
  Local Notation c := (FloatSil.cnt n).

  Lemma cnt_1 : (1 <= c)%Q.
  Proof. unfold FloatSil.cnt. change 1%Q with (inject_Z 1). rewrite <- Zle_Qle. lia. Qed.

  (** the sum of the ratios against the average silhouette *)
  Lemma units_le q m m' : (rtot v n m <= rtot v n m' + c * q)%Q -> (med_sil v n m' <= med_sil v n m + q)%Q.
  Proof.
    intros h. pose proof cnt_1 as hc. rewrite !med_sil_rtot. fold (FloatSil.cnt n).
    assert (h' : ((rtot v n m - rtot v n m') / c <= q)%Q) by (apply Qle_shift_div_r; lra).
    assert (e : ((rtot v n m - rtot v n m') / c == rtot v n m / c - rtot v n m' / c)%Q) by (field; lra). lra.
  Qed.

  Lemma eps3_units : (eps3 n == c * sil_errors n)%Q.
  Proof. unfold eps3, sil_errors, sil_error. change (inject_Z (Z.of_nat n)) with c. ring. Qed.

  Lemma sil_error_pos : (0 <= sil_error n)%Q.
  Proof.
    pose proof cnt_1 as hc. unfold sil_error. change (inject_Z (Z.of_nat n)) with c.
    apply Qmult_le_0_compat; [lra|apply Qlt_le_weak; reflexivity].
  Qed.
  Lemma sil_errors_ge : (sil_error n <= sil_errors n)%Q.
  Proof. unfold sil_errors. pose proof serr_lo. lra. Qed.

  (** the last rounding steps *)
  Lemma last_steps : ((c + 7) * 2 ^ (-54) <= sil_error n)%Q.
  Proof.
    pose proof cnt_1 as hc. unfold sil_error. change (inject_Z (Z.of_nat n)) with c.
    assert (e : (2 ^ (-44) == 1024 * 2 ^ (-54))%Q) by reflexivity. rewrite e.
    assert (p : (0 < 2 ^ (-54))%Q) by reflexivity. set (t := (2 ^ (-54))%Q) in *. nra.
  Qed.

  Lemma nearly_units med e E : (E <= c * e)%Q -> nearly3 n D E med -> nearly_sil v n med e.
  Proof. intros he h b j hb hj hni. specialize (h b j hb hj hni). unfold gain in h. apply units_le. lra. Qed.

  Lemma silhouette_near (M : Mat Nt) (HM : is_matrix M n D) (Hu : (N.of_nat n <= 4294967295)%N) med (s : f64) :
    loss_near n D med s -> off_by (sil_error n) (med_sil v n med) (to_silhouette M s).
  Proof.
    intros [w1 w2]. destruct (msil_end Hn Hu w1 w2) as [_ [h1 h2]]. pose proof last_steps as hl.
    unfold to_silhouette. rewrite (len_n HM). apply Qabs_Qle_condition. rewrite med_sil_rtot. fold (FloatSil.cnt n). lra.
  Qed.
End Units.

Lemma off_by_mono e e' x (y : f64) : (e <= e')%Q -> off_by e x y -> off_by e' x y.
Proof. unfold off_by. intros h1 h2. apply Qle_trans with e; auto. Qed.

Lemma sum_small {U : SumErr} n : 1 <= n -> (2 * FloatSil.sum_err n <= eps3 n)%Q.
Proof.
  intros hn. pose proof (sum_err_small hn) as h1. pose proof (eps3_err n) as h2. pose proof (err3_pos n) as h3. 
  pose proof (sum_err_pos n). lra.
Qed.

Lemma ended3_result {U : SumErr} {Nt : Type} `{HO : OrdLaws Nt} (M : Mat Nt) (D : nat -> nat -> Nt) n k maxiter med (L0 s : f64) rmed it sw assi :
  is_matrix M n D -> 1 <= n -> (N.of_nat n <= 4294967295)%N -> loss_near n D med L0 -> ended3 n D k maxiter L0 rmed s it ->
  let r := mkPR (to_silhouette M s) assi it sw rmed in
  (med_sil (vals D) n med <= med_sil (vals D) n (r_med r) + 2 * sil_errors n)%Q /\
  off_by (2 * sil_errors n) (med_sil (vals D) n (r_med r)) (r_loss r) /\
  (r_iter r < maxiter -> stops_sil (vals D) n k (sil_errors n) r).
Proof.
  intros HM hn hu [(lf & l0 & l0') [l1 l2]] (h1 & h2 & [h3 h3'] & (x & hx & hx1 & hx2) & h4). cbn [r_med r_loss r_iter].
  pose proof (sum_small n hn) as hss. pose proof (eps3_units n) as hu3. pose proof (sil_error_pos n hn) as hp. pose proof (sil_errors_ge n) as hge. pose proof (cnt_1 n hn) as hc.
  assert (hq : forall q a b : Q, (a - FloatSil.cnt n * q <= b -> 1 - b / FloatSil.cnt n <= 1 - a / FloatSil.cnt n + q)%Q).
  { intros q a b h. assert (h' : ((a - b) / FloatSil.cnt n <= q)%Q) by (apply Qle_shift_div_r; lra).
    assert (e : ((a - b) / FloatSil.cnt n == a / FloatSil.cnt n - b / FloatSil.cnt n)%Q) by (field; lra). lra. }
  split; [apply (units_le n D hn); lra|]. split.
  - destruct (msil_end hn hu h2 hx) as [_ [m1 m2]]. pose proof (last_steps n hn) as hl.
    unfold to_silhouette. rewrite (len_n HM). apply Qabs_Qle_condition. rewrite med_sil_rtot. fold (FloatSil.cnt n).
    assert (g1 : (x - FloatSil.cnt n * sil_errors n <= rtot (vals D) n rmed)%Q) by lra.
    assert (g2 : (rtot (vals D) n rmed - FloatSil.cnt n * sil_errors n <= x)%Q) by lra.
    apply hq in g1. apply hq in g2. lra.
  - intros hlt. destruct (h4 hlt) as (med0 & a1 & a2 & a3 & a4 & a5 & a6). exists med0. cbn [r_med r_loss].
    split; [auto|]. split; [apply (nearly_units n D hn) with (2 := a2); lra|]. split; [auto|]. split.
    + apply Qabs_Qle_condition.
      assert (g1 : (rtot (vals D) n rmed <= rtot (vals D) n med0 + FloatSil.cnt n * sil_errors n)%Q) by lra.
      assert (g2 : (rtot (vals D) n med0 <= rtot (vals D) n rmed + FloatSil.cnt n * sil_errors n)%Q) by lra.
      apply (units_le n D hn) in g1. apply (units_le n D hn) in g2. lra.
    + apply off_by_mono with (sil_error n); [auto|]. apply (silhouette_near n D hn M HM hu). exact a4.
Qed.

Lemma nearly_sil_mono v n med e e' : (e <= e')%Q -> nearly_sil v n med e -> nearly_sil v n med e'.
Proof. intros he h b j hb hj hni. specialize (h b j hb hj hni). lra. Qed.
Lemma stops_sil_mono v n k e e' r : (e <= e')%Q -> stops_sil v n k e r -> stops_sil v n k e' r.
Proof.
  intros he (med0 & h1 & h2 & h3 & h4 & h5). exists med0. split; [auto|].
  split; [apply nearly_sil_mono with (2 := h2); auto|]. split; [auto|]. split; [lra|]. apply off_by_mono with (2 := h5). auto.
Qed.
Lemma errors64 n : (sil_errors (U := err64) n == sil_error n)%Q.
Proof. unfold sil_errors. cbn [serr err64]. ring. Qed.

Lemma ended3_result64 {Nt : Type} `{HO : OrdLaws Nt} (M : Mat Nt) (D : nat -> nat -> Nt) n k maxiter med (L0 s : f64) rmed it sw assi :
  is_matrix M n D -> 1 <= n -> (N.of_nat n <= 4294967295)%N -> loss_near n D med L0 ->
  ended3 (U := err64) n D k maxiter L0 rmed s it ->
  let r := mkPR (to_silhouette M s) assi it sw rmed in
  (med_sil (vals D) n med <= med_sil (vals D) n (r_med r) + 2 * sil_error n)%Q /\
  off_by (2 * sil_error n) (med_sil (vals D) n (r_med r)) (r_loss r) /\
  (r_iter r < maxiter -> stops_sil (vals D) n k (sil_error n) r).
Proof.
  intros HM hn hu hL hend r. pose proof (errors64 n) as e64.
  destruct (ended3_result M D n k maxiter med L0 s rmed it sw assi HM hn hu hL hend) as (h1 & h2 & h3).
  subst r. cbn [r_med r_loss r_iter] in h1, h2, h3 |- *.
  split; [lra|]. split; [apply off_by_mono with (2 := h2); lra|].
  intros hlt. apply stops_sil_mono with (2 := h3 hlt). lra.
Qed.

(** fastmsc, the swap phase of PAMMEDSIL and fastermsc for any error of the sums *)
Lemma fastmsc_pammedsil_errors {U : SumErr} {Nt : Type} `{HO : OrdLaws Nt} `{HF : FromN Nt f64} (M : Mat Nt) n D med maxiter :
  diss_matrix M n D -> exact_from n D -> adds_within serr n D -> sizes n (length med) -> medoids n (length med) med -> 2 <= length med ->
  exists r1 r2 : pam_result f64, fastmsc M med maxiter = Ok r1 /\ pammedsil_swap M med maxiter = Ok r2 /\
    forall r, r = r1 \/ r = r2 ->
      (med_sil (vals D) n med <= med_sil (vals D) n (r_med r) + 2 * sil_errors n)%Q /\
      off_by (2 * sil_errors n) (med_sil (vals D) n (r_med r)) (r_loss r) /\
      (r_iter r < maxiter -> stops_sil (vals D) n (length med) (sil_errors n) r).
Proof.
  intros HD he ha hs hm hk. pose proof hm as (_ & hnd & hin). pose proof (proj1 HD) as HM. destruct (emb_vals HD) as [hemb hg].
  assert (hn : 1 <= n) by (destruct hs; lia). assert (hn32 : (N.of_nat n <= 4294967295)%N) by apply hs.
  pose proof (initial_assignment3_ok (Lt := f64) HM True hs hin hk) as h.
  apply oks_inv in h as ([loss data] & e & hd & hsum & hown). cbn [fst snd] in *.
  pose proof (loss3_near HD he hn hn32 hin hd hsum) as hL.
  assert (hi : forall rl, q_all n D (length med) (mkM med data rl loss 0 0 0)).
  { intros rl. constructor; cbn [m_med m_data m_loss]; eauto. constructor; auto. }
  assert (hk1 : (length med =? 1) = false) by (apply Nat.eqb_neq; lia).
  assert (hr1 : exists r1, fastmsc M med maxiter = Ok r1 /\
      (med_sil (vals D) n med <= med_sil (vals D) n (r_med r1) + 2 * sil_errors n)%Q /\
      off_by (2 * sil_errors n) (med_sil (vals D) n (r_med r1)) (r_loss r1) /\
      (r_iter r1 < maxiter -> stops_sil (vals D) n (length med) (sil_errors n) r1)).
  { unfold fastmsc. rewrite hk1. destruct (length med =? 2) eqn:hk2.
    - apply Nat.eqb_eq in hk2. rewrite hk2 in *. unfold fastmsc_k2. rewrite hk2. cbn [Nat.eqb assertb bind].
      destruct (k2_initial (Lt := f64) HD hs hm) as (loss2 & assi2 & data2 & e2 & h2). rewrite e2. cbn [bind].
      assert (hn2 : 2 <= n) by (destruct hs; lia).
      pose proof (fastmsc_k2_near HD he hn hn32 maxiter hn2 (h2 0) eq_refl) as h.
      apply oks_inv in h as (s & -> & h). cbn [bind]. eexists. split; [reflexivity|].
      eapply ended3_result with (L0 := loss2); [exact HM|auto|auto| |exact h].
      apply (kg_loss2 HD he hn hn32 (h2 0)).
    - apply Nat.eqb_neq in hk2. rewrite e. cbn [bind].
      pose proof (fastmsc_near HD he hn hn32 ha maxiter (k := length med) (st := mkM med data (repeat lzero (length med)) loss 0 0 0)
        ltac:(lia) (hi _) (repeat_length _ _) eq_refl) as h.
      apply oks_inv in h as (s & -> & h). cbn [bind]. eexists. split; [reflexivity|].
      eapply ended3_result with (L0 := loss); [exact HM|auto|auto|exact hL|exact h]. }
  destruct hr1 as (r1 & e1 & h1).
  pose proof (pms_near HD he hn hn32 maxiter (k := length med) (st := mkM med data [] loss 0 0 0) hk (hi _) eq_refl) as h.
  apply oks_inv in h as (s & es & h2). exists r1. eexists. split; [exact e1|].
  split; [unfold pammedsil_swap; rewrite e; cbn [bind]; unfold pammedsil_optimize; rewrite hk1, es; reflexivity|].
  intros r [->| ->]; [exact h1|].
  eapply ended3_result with (L0 := loss); [exact HM|auto|auto|exact hL|exact h2].
Qed.

Lemma fastermsc_errors {U : SumErr} {Nt : Type} `{HO : OrdLaws Nt} `{HF : FromN Nt f64} (M : Mat Nt) n D med maxiter :
  diss_matrix M n D -> exact_from n D -> adds_within serr n D -> sizes n (length med) -> medoids n (length med) med -> 2 <= length med ->
  exists r : pam_result f64, fastermsc M med maxiter = Ok r /\
    (med_sil (vals D) n med <= med_sil (vals D) n (r_med r) + inject_Z (Z.of_nat n + 1) * sil_errors n)%Q /\
    off_by (sil_errors n) (med_sil (vals D) n (r_med r)) (r_loss r) /\
    (r_swaps r = 0 -> 1 <= maxiter -> nearly_sil (vals D) n (r_med r) (sil_errors n)) /\
    (r_iter r < maxiter -> nearly_sil (vals D) n (r_med r) (sil_errors n) \/ stalled_sil (fastermsc M med) r).
Proof.
  intros HD he ha hs hm hk. pose proof hm as (_ & hnd & hin). pose proof (proj1 HD) as HM. destruct (emb_vals HD) as [hemb hg].
  assert (hn : 1 <= n) by (destruct hs; lia). assert (hn32 : (N.of_nat n <= 4294967295)%N) by apply hs.
  assert (hk1 : (length med =? 1) = false) by (apply Nat.eqb_neq; lia).
  pose proof (sum_small n hn) as hss. pose proof (eps3_units n) as hu3. pose proof (sil_error_pos n hn) as hp. pose proof (sil_errors_ge n) as hge. pose proof (cnt_1 n hn) as hc.
  pose proof (eps3_err n) as hee. pose proof (err3_pos n) as hep.
  assert (hworse : forall (L0 : f64) rmed, loss_near n D med L0 ->
      (rtot (vals D) n rmed <= f64_val L0 + FloatSil.sum_err n + FloatSil.cnt n * err3 n)%Q ->
      (med_sil (vals D) n med <= med_sil (vals D) n rmed + inject_Z (Z.of_nat n + 1) * sil_errors n)%Q).
  { intros L0 rmed [_ [l1 l2]] h. apply (units_le n D hn). rewrite inject_Z_plus. change (inject_Z (Z.of_nat n)) with (FloatSil.cnt n).
    change (inject_Z 1) with 1%Q.
    assert (hx : (FloatSil.cnt n * err3 n <= FloatSil.cnt n * eps3 n)%Q).
    { rewrite !(Qmult_comm (FloatSil.cnt n)). apply Qmult_le_compat_r; lra. }
    assert (ex : (FloatSil.cnt n * ((FloatSil.cnt n + 1) * sil_errors n) == FloatSil.cnt n * eps3 n + eps3 n)%Q) by (rewrite hu3; ring).
    lra. }
  assert (hnear : forall rmed, nearly3 n D (err3 n) rmed -> nearly_sil (vals D) n rmed (sil_errors n)).
  { intros rmed h. apply (nearly_units n D hn) with (2 := h). lra. }
  assert (hmono : forall a b : f64, FloatSil.within 0 (FloatSil.cnt n) a -> FloatSil.within 0 (FloatSil.cnt n) b -> (f64_val a <= f64_val b)%Q ->
      (f64_val (to_silhouette M b) <= f64_val (to_silhouette M a))%Q).
  { intros a b h1 h2 h3. unfold to_silhouette. rewrite (len_n HM). apply silhouette_mono; auto. }
  unfold stalled_sil. unfold fastermsc at 1 2. rewrite hk1. destruct (length med =? 2) eqn:hk2.
  - apply Nat.eqb_eq in hk2. rewrite hk2 in *. unfold fastermsc_k2 at 1 2. rewrite hk2. cbn [Nat.eqb assertb bind].
    destruct (k2_initial (Lt := f64) HD hs hm) as (loss2 & assi2 & data2 & e2 & h2). rewrite e2, (len_n HM). cbn [bind].
    pose proof (fastermsc_k2_near HD he hn hn32 maxiter (h2 n) eq_refl eq_refl eq_refl) as h.
    apply oks_inv in h as (s & -> & a1 & a2 & a3 & a4). cbn [bind]. eexists. split; [reflexivity|].
    cbn [r_med r_swaps r_iter r_loss k_loss] in *.
    split; [apply (hworse loss2); [apply (kg_loss2 HD he hn hn32 (h2 n))|exact a2]|].
    split; [apply off_by_mono with (sil_error n); [auto|]; apply (silhouette_near n D hn M HM hn32); apply (kg_loss2 HD he hn hn32 a1)|].
    split; [auto|]. intros hlt. destruct (a4 hlt) as [h|(i & s1 & b1 & b2 & b3 & b4)]; [left; auto|right].
    exists i. eexists. rewrite b3. cbn [bind]. split; [auto|]. split; [reflexivity|]. cbn [r_loss].
    apply hmono; [apply (kg_loss2 HD he hn hn32 b2)|apply (kg_loss2 HD he hn hn32 a1)|exact b4].
  - apply Nat.eqb_neq in hk2. assert (hk3 : 3 <= length med) by lia.
    pose proof (initial_assignment3_ok (Lt := f64) HM True hs hin hk) as h.
    apply oks_inv in h as ([loss data] & e & hd & hsum & hown). cbn [fst snd] in *.
    pose proof (update_removal_loss3_near HD he hn hn32 _ hin hk3 hd (repeat_length (lzero : f64) (length med))) as h.
    apply oks_inv in h as (rl & er & hrl & hrn).
    rewrite e. cbn [bind]. rewrite er, (len_n HM). cbn [bind].
    assert (hc0 : m_core n D (length med) (mkM med data rl loss n 0 0)).
    { constructor; cbn [m_med m_data m_rl m_loss]; eauto. constructor; auto. }
    pose proof (fastermsc_near HD he hn hn32 ha maxiter hk3 hc0 eq_refl eq_refl eq_refl) as h.
    apply oks_inv in h as (s & -> & a1 & a2 & a3 & a4). cbn [bind]. eexists. split; [reflexivity|].
    cbn [r_med r_swaps r_iter r_loss m_loss] in *.
    split; [apply (hworse loss); [apply (mc_loss HD he hn hn32 hc0)|exact a2]|].
    split; [apply off_by_mono with (sil_error n); [auto|]; apply (silhouette_near n D hn M HM hn32); apply (mc_loss HD he hn hn32 a1)|].
    split; [auto|]. intros hlt. destruct (a4 hlt) as [h|(i & s1 & b1 & b2 & b3 & b4)]; [left; auto|right].
    exists i. eexists. rewrite b3. cbn [bind]. split; [auto|]. split; [reflexivity|]. cbn [r_loss].
    apply hmono; [apply (mc_loss HD he hn hn32 b2)|apply (mc_loss HD he hn hn32 a1)|exact b4].
Qed.

(** C63.  fastmsc and the swap phase of PAMMEDSIL. *)
Theorem C63_fastmsc_pammedsil {Nt : Type} `{HO : OrdLaws Nt} `{HF : FromN Nt f64} (M : Mat Nt) n D med maxiter :
  diss_matrix M n D -> exact_from n D -> adds_near n D -> sizes n (length med) -> medoids n (length med) med -> 2 <= length med ->
  exists r1 r2 : pam_result f64, fastmsc M med maxiter = Ok r1 /\ pammedsil_swap M med maxiter = Ok r2 /\
    forall r, r = r1 \/ r = r2 ->
      (med_sil (vals D) n med <= med_sil (vals D) n (r_med r) + 2 * sil_error n)%Q /\
      off_by (2 * sil_error n) (med_sil (vals D) n (r_med r)) (r_loss r) /\
      (r_iter r < maxiter -> stops_sil (vals D) n (length med) (sil_error n) r).
Proof.
  intros HD he ha hs hm hk. pose proof (errors64 n) as e64.
  destruct (fastmsc_pammedsil_errors (U := err64) M n D med maxiter HD he ha hs hm hk) as (r1 & r2 & e1 & e2 & h).
  exists r1, r2. split; [exact e1|]. split; [exact e2|]. intros r hr. destruct (h r hr) as (h1 & h2 & h3).
  split; [lra|]. split; [apply off_by_mono with (2 := h2); lra|].
  intros hlt. apply stops_sil_mono with (2 := h3 hlt). lra.
Qed.
Print Assumptions C63_fastmsc_pammedsil.
Lemma f1_adds : adds_near 5 (fentries rows_f1).
Proof.
  apply (f64_adds_near (diss_nonneg _ _ _ f1_diss)). intros x y hx hy.
  do 5 (destruct x; [do 5 (destruct y; [vm_compute; discriminate|]); lia|]). lia.
Qed.
Lemma d6_adds : adds_near 6 d6.
Proof.
  apply int_adds_near. intros x y hx hy.
  do 6 (destruct x; [do 6 (destruct y; [vm_compute; split; discriminate|]); lia|]). lia.
Qed.
Definition C63_case_fastmsc_pammedsil := C63_fastmsc_pammedsil _ 5 _ [0; 1; 2] 10 f1_diss
  (f64_exact_from _ _ _ (diss_nonneg _ _ _ f1_diss)) f1_adds s53 k53 (le_S _ _ (le_n 2)).
Definition C63_case_two := C63_fastmsc_pammedsil _ 5 _ [0; 1] 10 f1_diss
  (f64_exact_from _ _ _ (diss_nonneg _ _ _ f1_diss)) f1_adds s52 k52 (le_n 2).
(** with integer dissimilarities *)
Definition C63_case_integers := C63_fastmsc_pammedsil _ 6 _ [0; 1; 3] 10 m6_diss d6_exact d6_adds s63 k63 (le_S _ _ (le_n 2)).

(** fastermsc: what it returns is not worse than the medoids it was given, up to rounding; after a pass
    without swaps it is nearly optimal.  The other way to stop is a pass which did not raise the computed
    silhouette. *)
Theorem C63_fastermsc {Nt : Type} `{HO : OrdLaws Nt} `{HF : FromN Nt f64} (M : Mat Nt) n D med maxiter :
  diss_matrix M n D -> exact_from n D -> adds_near n D -> sizes n (length med) -> medoids n (length med) med -> 2 <= length med ->
  exists r : pam_result f64, fastermsc M med maxiter = Ok r /\
    (med_sil (vals D) n med <= med_sil (vals D) n (r_med r) + inject_Z (Z.of_nat n + 1) * sil_error n)%Q /\
    off_by (sil_error n) (med_sil (vals D) n (r_med r)) (r_loss r) /\
    (r_swaps r = 0 -> 1 <= maxiter -> nearly_sil (vals D) n (r_med r) (sil_error n)) /\
    (r_iter r < maxiter -> nearly_sil (vals D) n (r_med r) (sil_error n) \/ stalled_sil (fastermsc M med) r).
Proof.
  intros HD he ha hs hm hk. pose proof (errors64 n) as e64.
  destruct (fastermsc_errors (U := err64) M n D med maxiter HD he ha hs hm hk) as (r & e & h1 & h2 & h3 & h4).
  exists r. split; [exact e|]. rewrite e64 in h1. split; [exact h1|].
  split; [apply off_by_mono with (2 := h2); lra|].
  split; [intros a b; apply nearly_sil_mono with (2 := h3 a b); lra|].
  intros hlt. destruct (h4 hlt) as [h|h]; [left; apply nearly_sil_mono with (2 := h); lra|right; exact h].
Qed.
Print Assumptions C63_fastermsc.
Definition C63_case_fastermsc := C63_fastermsc _ 5 _ [0; 1; 2] 10 f1_diss
  (f64_exact_from _ _ _ (diss_nonneg _ _ _ f1_diss)) f1_adds s53 k53 (le_S _ _ (le_n 2)).
Definition C63_case_fastermsc_two := C63_fastermsc _ 5 _ [0; 1] 10 f1_diss
  (f64_exact_from _ _ _ (diss_nonneg _ _ _ f1_diss)) f1_adds s52 k52 (le_n 2).

(** With a limit above n^k they always get there. *)
Theorem C63_enough_iterations (M : Mat f64) n D med maxiter :
  diss_matrix M n D -> no_negative_zero n D -> adds_near n D -> sizes n (length med) -> medoids n (length med) med ->
  2 <= length med -> n ^ length med < maxiter ->
  exists r1 r2 r3 : pam_result f64, fastmsc M med maxiter = Ok r1 /\ pammedsil_swap M med maxiter = Ok r2 /\
    fastermsc M med maxiter = Ok r3 /\
    stops_sil (vals D) n (length med) (sil_error n) r1 /\ stops_sil (vals D) n (length med) (sil_error n) r2 /\
    (nearly_sil (vals D) n (r_med r3) (sil_error n) \/ stalled_sil (fastermsc M med) r3).
Proof.
  intros hd hz ha hs hm hk hlt. pose proof (f64_exact_from _ _ _ (diss_nonneg _ _ _ hd)) as he.
  destruct (C63_fastmsc_pammedsil M n D med maxiter hd he ha hs hm hk) as (r1 & r2 & e1 & e2 & h).
  destruct (C63_fastermsc M n D med maxiter hd he ha hs hm hk) as (r3 & e3 & _ & _ & _ & h3).
  destruct (C60_medoid_silhouette M n D med hd hz hs (proj2 (proj2 hm))) as (g3 & g1 & g2 & _).
  destruct g1 as (r1' & f1 & g1). destruct g2 as (r2' & f2 & g2). destruct g3 as (r3' & f3 & g3).
  specialize (g1 maxiter ltac:(lia)). specialize (g2 maxiter ltac:(lia)). specialize (g3 maxiter ltac:(lia)).
  assert (r1' = r1) as -> by congruence. assert (r2' = r2) as -> by congruence. assert (r3' = r3) as -> by congruence.
  exists r1, r2, r3. split; [exact e1|]. split; [exact e2|]. split; [exact e3|].
  split; [apply h; [auto|lia]|]. split; [apply h; [auto|lia]|]. apply h3. lia.
Qed.
Print Assumptions C63_enough_iterations.
Definition C63_case_enough := C63_enough_iterations _ 5 _ [0; 1; 2] 126 f1_diss f1_no_negative_zero f1_adds s53 k53
  (le_S _ _ (le_n 2)) (le_n 126).
