(** P_Grow.v -- property C97: one medoid more.  Starting again from the result and any further object, the loss falls by at least the
    distance of that object to its medoid; from the farthest object it falls at least by the factor [1 - 1/(n-k)].
    Every theorem is followed by a concrete input which meets its hypotheses. *)
From Coq Require Import ZArith QArith Lqa Lia Permutation.
From Coq.Floats Require Import SpecFloat.
From Verif Require Import Base Num M_Mat M_Util M_Fasterpam M_Pam M_Alternating M_ParFasterpam M_Msc Inst Hoare Spec SpecFacts Laws
  PamShape PamExact FpMain PamMain ParFacts AltFacts Reference Ex P_Fasterpam P_Pam P_Restart P_Approx.
From Verif Require Import FloatSil FloatQuality P_Float P_Rounding P_FloatOpt.
Open Scope nat_scope.

Section Runs.
  Context {Nt Lt : Type} `{HLL : LossLaws Nt Lt}.
  Variables (M : Mat Nt) (n : nat) (D : nat -> nat -> Nt).
  Hypothesis hd : diss_matrix M n D.
  Local Notation v := (vals D).

  (** the loss is that of the returned medoids, and not above that of the initial ones *)
  Definition no_worse (med : list nat) (p : pam_result Lt) : Prop :=
    medoids n (length med) (r_med p) /\ (vL (r_loss p) == tdev v n (r_med p))%Q /\ (tdev v n (r_med p) <= tdev v n med)%Q.

  Lemma runs_no_worse orc order med maxiter (P : res (pam_result Lt) -> Prop) :
    sizes n (length med) -> medoids n (length med) med -> 2 <= length med \/ symmetric n v ->
    Permutation order (seq 0 n) -> valid_oracle orc -> (forall p, no_worse med p -> P (Ok p)) ->
    all_swap_runs (Lt := Lt) M orc order med maxiter P.
  Proof.
    intros hs hm hk hp hor G. destruct (perm_order n order hp) as [hnd ho].
    destruct (fasterpam_all (Lt := Lt) hd maxiter hs hm) as (r1 & e1 & h1).
    destruct (rand_fasterpam_all (Lt := Lt) hd maxiter hs hm hnd ho) as (r2 & e2 & h2).
    destruct (C13_schedule_independent (Lt := Lt) M n D orc order med maxiter hd hs hm ho hor)
      as (r2' & r3 & e2' & e3 & p1 & p0 & p2 & p3 & p4). rewrite e2 in e2'. injection e2' as <-.
    destruct (fastpam1_all (Lt := Lt) hd maxiter hs hm) as (r4 & e4 & e5 & h4).
    unfold all_swap_runs. rewrite e1, e2, e3, e4, e5.
    split; [|split; [|split; [|split]]]; apply G; unfold no_worse; rewrite <- ?p0, <- ?p1, <- ?p4.
    - split; [apply h1|]. split; [apply h1|apply h1]; auto.
    - split; [apply h2|]. split; [apply h2|apply h2]; auto.
    - split; [apply h2|]. split; [apply h2|apply h2]; auto.
    - split; [apply h4|]. split; [apply h4|apply h4]; auto.
    - split; [apply h4|]. split; [apply h4|apply h4]; auto.
  Qed.
End Runs.

Lemma NoDup_app_intro (a b : list nat) : NoDup a -> NoDup b -> (forall x, In x a -> ~ In x b) -> NoDup (a ++ b).
Proof.
  intros ha hb h. induction a as [|x a IH]; [exact hb|]. inversion ha as [|? ? h1 h2]; subst. simpl. constructor.
  - intros hx. apply in_app_or in hx as [hx|hx]; [contradiction|]. exact (h x (or_introl eq_refl) hx).
  - apply IH; [exact h2|]. intros y hy. apply h. right. exact hy.
Qed.

(** among the objects which are no medoids, one contributes at least the average to the loss *)
Lemma far_object v n med : dissimilarity n v -> medoids n (length med) med -> length med < n ->
  exists x, x < n /\ ~ In x med /\
    (tdev v n med <= inject_Z (Z.of_nat (n - length med)) * mindist v x med)%Q.
Proof.
  intros hv (_ & hnd & hin) hl. set (out := filter (fun x => if in_dec Nat.eq_dec x med then false else true) (seq 0 n)).
  assert (hout : forall x, In x out <-> x < n /\ ~ In x med).
  { intros x. unfold out. rewrite filter_In, in_seq. destruct (in_dec Nat.eq_dec x med); intuition; try lia; discriminate. }
  assert (hperm : Permutation (med ++ out) (seq 0 n)).
  { apply NoDup_Permutation; [|apply seq_NoDup|].
    - apply NoDup_app_intro; [exact hnd|apply NoDup_filter, seq_NoDup|]. intros x hx hx'. apply hout in hx'. tauto.
    - intros x. rewrite in_app_iff, hout, in_seq. specialize (hin x). destruct (in_dec Nat.eq_dec x med); intuition lia. }
  assert (hlen : length out = n - length med).
  { pose proof (Permutation_length hperm) as h. rewrite app_length, seq_length in h. lia. }
  assert (hsum : (tdev v n med == sumQ (fun o => mindist v o med) out)%Q).
  { unfold tdev. rewrite <- (sumQ_perm _ hperm), sumQ_app.
    assert (h0 : (sumQ (fun o => mindist v o med) med == sumQ (fun _ => 0%Q) med)%Q).
    { apply sumQ_ext. intros x hx. apply mindist_self with (n := n); auto. }
    rewrite h0, sumQ_zero. lra. }
  assert (hmax : forall l, l <> [] -> exists x, In x l /\
    (sumQ (fun o => mindist v o med) l <= inject_Z (Z.of_nat (length l)) * mindist v x med)%Q).
  { clear. induction l as [|a [|b l] IH]; intros h; [congruence| |].
    - exists a. split; [left; reflexivity|]. simpl. change (inject_Z 1) with 1%Q. lra.
    - destruct IH as (x & hx & hle); [congruence|]. set (t := b :: l) in *.
      change (length (a :: t)) with (S (length t)). rewrite Nat2Z.inj_succ. unfold Z.succ. rewrite inject_Z_plus.
      change (inject_Z 1) with 1%Q.
      assert (hsum : (sumQ (fun o => mindist v o med) (a :: t) == mindist v a med + sumQ (fun o => mindist v o med) t)%Q) by reflexivity.
      assert (h0 : (0 <= inject_Z (Z.of_nat (length t)))%Q) by (change 0%Q with (inject_Z 0); rewrite <- Zle_Qle; lia).
      destruct (Qlt_le_dec (mindist v a med) (mindist v x med)) as [hlt|hge].
      + exists x. split; [right; exact hx|]. lra.
      + exists a. split; [left; reflexivity|].
        assert (h1 : (inject_Z (Z.of_nat (length t)) * mindist v x med <= inject_Z (Z.of_nat (length t)) * mindist v a med)%Q).
        { rewrite (Qmult_comm _ (mindist v x med)), (Qmult_comm _ (mindist v a med)). apply Qmult_le_compat_r; assumption. }
        lra. }
  destruct (hmax out) as (x & hx & hle); [intros h0; rewrite h0 in hlen; simpl in hlen; lia|].
  exists x. apply hout in hx as [hx1 hx2]. split; [exact hx1|]. split; [exact hx2|]. rewrite hsum, <- hlen. exact hle.
Qed.

(** C97.  The two runs may use different orders, schedules, limits, and different algorithms. *)
Theorem C97_one_more {Nt Lt : Type} `{HLL : LossLaws Nt Lt} (M : Mat Nt) n D orc order med maxiter orc' order' maxiter' :
  diss_matrix M n D -> sizes n (S (length med)) -> medoids n (length med) med -> 1 <= length med ->
  2 <= length med \/ symmetric n (vals D) ->
  Permutation order (seq 0 n) -> valid_oracle orc -> Permutation order' (seq 0 n) -> valid_oracle orc' ->
  all_swap_runs (Lt := Lt) M orc order med maxiter (fun m => exists p, m = Ok p /\
    (forall x, x < n -> ~ In x (r_med p) ->
      all_swap_runs (Lt := Lt) M orc' order' (r_med p ++ [x]) maxiter' (fun m' => exists p', m' = Ok p' /\
        (vL (r_loss p') <= vL (r_loss p) - mindist (vals D) x (r_med p))%Q)) /\
    (exists x, x < n /\ ~ In x (r_med p) /\
      all_swap_runs (Lt := Lt) M orc' order' (r_med p ++ [x]) maxiter' (fun m' => exists p', m' = Ok p' /\
        (inject_Z (Z.of_nat (n - length med)) * vL (r_loss p') <=
         inject_Z (Z.of_nat (n - S (length med))) * vL (r_loss p))%Q))).
Proof.
  intros hd hs hm h1 hk hp hor hp' hor'. pose proof (proj2 (proj1 (emb_vals hd))) as hv.
  assert (hs0 : sizes n (length med)) by (destruct hs as (a1 & a2 & a3); split; [lia|split; [auto|lia]]).
  assert (hkn : length med < n) by (destruct hs as (a1 & a2 & a3); lia).
  apply runs_no_worse with (n := n) (D := D); auto. intros p ((m1 & m2 & m3) & hlo & _). exists p. split; [reflexivity|].
  assert (hne : r_med p <> []) by (intros h0; rewrite h0 in m1; simpl in m1; lia).
  assert (G : forall x, x < n -> ~ In x (r_med p) ->
      all_swap_runs (Lt := Lt) M orc' order' (r_med p ++ [x]) maxiter' (fun m' => exists p', m' = Ok p' /\
        (vL (r_loss p') <= vL (r_loss p) - mindist (vals D) x (r_med p))%Q)).
  { intros x hx hnx. assert (hl : length (r_med p ++ [x]) = S (length med)) by (rewrite app_length, m1; simpl; lia).
    apply runs_no_worse with (n := n) (D := D); rewrite ?hl; auto.
    - split; [exact hl|]. split.
      + apply NoDup_app_intro; [exact m2|repeat constructor; simpl; tauto|]. intros y hy [<-|[]]. contradiction.
      + intros y hy. apply in_app_or in hy as [hy|[<-|[]]]; auto.
    - left. lia.
    - intros p' (_ & hlo' & hle). exists p'. split; [reflexivity|].
      pose proof (@tdev_snoc_le (vals D) n (r_med p) x hv hx hne) as h2. rewrite hlo, hlo'. lra. }
  split; [exact G|]. destruct (far_object (vals D) n (r_med p) hv) as (x & hx & hnx & hfar); [rewrite m1; split; auto|lia|].
  exists x. split; [exact hx|]. split; [exact hnx|]. specialize (G x hx hnx). rewrite m1 in hfar. rewrite <- hlo in hfar.
  assert (hq : (inject_Z (Z.of_nat (n - length med)) == inject_Z (Z.of_nat (n - S (length med))) + 1)%Q).
  { change 1%Q with (inject_Z 1). rewrite <- inject_Z_plus. replace (n - length med) with (S (n - S (length med))) by lia.
    rewrite Nat2Z.inj_succ. reflexivity. }
  assert (h0 : (0 <= inject_Z (Z.of_nat (n - length med)))%Q) by (change 0%Q with (inject_Z 0); rewrite <- Zle_Qle; lia).
  assert (K : forall m' : res (pam_result Lt),
    (exists p', m' = Ok p' /\ (vL (r_loss p') <= vL (r_loss p) - mindist (vals D) x (r_med p))%Q) ->
    exists p', m' = Ok p' /\ (inject_Z (Z.of_nat (n - length med)) * vL (r_loss p') <=
      inject_Z (Z.of_nat (n - S (length med))) * vL (r_loss p))%Q).
  { intros m' (p' & e & hle). exists p'. split; [exact e|].
    assert (h2 : (inject_Z (Z.of_nat (n - length med)) * vL (r_loss p') <=
      inject_Z (Z.of_nat (n - length med)) * (vL (r_loss p) - mindist (vals D) x (r_med p)))%Q).
    { rewrite !(Qmult_comm (inject_Z (Z.of_nat (n - length med)))). apply Qmult_le_compat_r; assumption. }
    set (a := inject_Z (Z.of_nat (n - length med))) in *. set (b := inject_Z (Z.of_nat (n - S (length med)))) in *.
    set (l := vL (r_loss p)) in *. set (d := mindist (vals D) x (r_med p)) in *. set (l' := vL (r_loss p')) in *.
    assert (h3 : (a * (l - d) == a * l - a * d)%Q) by ring.
    assert (h4 : (a * l == b * l + l)%Q) by (rewrite hq; ring). lra. }
  destruct G as (g1 & g2 & g3 & g4 & g5). unfold all_swap_runs. repeat split; apply K; assumption.
Qed.
Print Assumptions C97_one_more.
Lemma g_perm : Permutation [3; 0; 1; 4; 2] (seq 0 5).
Proof. apply NoDup_Permutation; [repeat constructor; simpl; lia|apply seq_NoDup|]. intros x. rewrite in_seq. simpl. lia. Qed.
(** five objects on a line *)
Definition rows_g : list (list Z) :=
  [[0; 1; 2; 3; 10]; [1; 0; 1; 2; 9]; [2; 1; 0; 1; 8]; [3; 2; 1; 0; 7]; [10; 9; 8; 7; 0]]%Z.
Definition m_g : Mat Z := mat_of_rows rows_g.
Lemma g_diss : diss_matrix m_g 5 (entries rows_g). Proof. apply rows_diss; [lia|reflexivity]. Qed.
Definition C97_case := C97_one_more (Lt := Z) m_g 5 (entries rows_g) P_Pam.orc2 [3; 0; 1; 4; 2] [0; 1] 0 P_Pam.orc2 (seq 0 5) 10
  g_diss s53 k52 (le_S _ _ (le_n 1)) (or_introl (le_n 2)) g_perm P_Pam.orc2_ok (Permutation_refl _) P_Pam.orc2_ok.
Example C97_value : exists p p', fasterpam (Lt := Z) m_g [0; 1] 10 = Ok p /\ ~ In 0 (r_med p) /\
  fasterpam (Lt := Z) m_g (r_med p ++ [0]) 10 = Ok p' /\ (r_loss p' < r_loss p)%Z /\ (0 < r_loss p')%Z.
Proof. do 2 eexists. split; [vm_compute; reflexivity|]. split; [vm_compute; lia|]. split; [vm_compute; reflexivity|]. vm_compute. auto. Qed.

(** C97, the alternating algorithm: likewise, from its own result and one more object *)
Theorem C97_alternating {Nt Lt : Type} `{HLL : LossLaws Nt Lt} (M : Mat Nt) n D med maxiter maxiter' :
  diss_matrix M n D -> sizes n (S (length med)) -> medoids n (length med) med -> 1 <= length med -> symmetric n (vals D) ->
  exists p : pam_result Lt, alternating M med maxiter = Ok p /\
    (forall x, x < n -> ~ In x (r_med p) -> exists p' : pam_result Lt, alternating M (r_med p ++ [x]) maxiter' = Ok p' /\
      (vL (r_loss p') <= vL (r_loss p) - mindist (vals D) x (r_med p))%Q) /\
    (exists x, x < n /\ ~ In x (r_med p) /\ (vL (r_loss p) <= inject_Z (Z.of_nat (n - length med)) * mindist (vals D) x (r_med p))%Q).
Proof.
  intros hd hs hm h1 hsy. pose proof (proj2 (proj1 (emb_vals hd))) as hv.
  assert (hs0 : sizes n (length med)) by (destruct hs as (a1 & a2 & a3); split; [lia|split; [auto|lia]]).
  assert (hkn : length med < n) by (destruct hs as (a1 & a2 & a3); lia).
  pose proof (alternating_ok (Lt := Lt) hd maxiter hs0 hm) as h. apply oks_inv in h as (p & e & h). exists p. split; [exact e|].
  destruct (as_medoids h) as (m1 & m2 & m3). pose proof (cl_loss (as_clustering h)) as hlo.
  assert (hne : r_med p <> []) by (intros h0; rewrite h0 in m1; simpl in m1; lia). split.
  - intros x hx hnx. assert (hl : length (r_med p ++ [x]) = S (length med)) by (rewrite app_length, m1; simpl; lia).
    assert (hm' : medoids n (length (r_med p ++ [x])) (r_med p ++ [x])).
    { split; [reflexivity|]. split.
      + apply NoDup_app_intro; [exact m2|repeat constructor; simpl; tauto|]. intros y hy [<-|[]]. contradiction.
      + intros y hy. apply in_app_or in hy as [hy|[<-|[]]]; auto. }
    rewrite <- hl in hs. pose proof (alternating_ok (Lt := Lt) hd maxiter' hs hm') as h'. apply oks_inv in h' as (p' & e' & h').
    exists p'. split; [exact e'|]. pose proof (cl_loss (as_clustering h')) as hlo'. pose proof (as_obj h' hsy) as hle.
    pose proof (@tdev_snoc_le (vals D) n (r_med p) x hv hx hne) as h2. rewrite hlo, hlo'. lra.
  - destruct (far_object (vals D) n (r_med p) hv) as (x & hx & hnx & hfar); [rewrite m1; split; auto|lia|].
    exists x. split; [exact hx|]. split; [exact hnx|]. rewrite hlo, <- m1. exact hfar.
Qed.
Print Assumptions C97_alternating.
Lemma g_sym : symmetric 5 (vals (entries rows_g)). Proof. apply (rows_metric 5 rows_g); [lia|reflexivity..]. Qed.
Definition C97_case_alternating := C97_alternating (Lt := Z) m_g 5 (entries rows_g) [0; 1] 10 10
  g_diss s53 k52 (le_S _ _ (le_n 1)) g_sym.

(** C97 in binary64, up to the rounding error: [med] are the medoids so far, from whatever run. *)
Theorem C97_f64 {Nt : Type} `{HO : OrdLaws Nt} `{HF : FromN Nt f64} (M : Mat Nt) n D med order maxiter mx x :
  diss_matrix M n D -> exact_from n D -> at_most n D mx -> sizes n (S (length med)) -> medoids n (length med) med ->
  1 <= length med -> lfrom (nzero : Nt) = S754_zero false -> x < n -> ~ In x med -> Permutation order (seq 0 n) ->
  exists r1 r2 r3 : pam_result f64, fastpam1 M (med ++ [x]) maxiter = Ok r1 /\ pam_swap M (med ++ [x]) maxiter = Ok r2 /\
    rand_fasterpam M order (med ++ [x]) maxiter = Ok r3 /\
    (tdev (vals D) n (r_med r1) <= tdev (vals D) n med - mindist (vals D) x med + 3 * rounding n mx)%Q /\
    (tdev (vals D) n (r_med r2) <= tdev (vals D) n med - mindist (vals D) x med + 3 * rounding n mx)%Q /\
    (tdev (vals D) n (r_med r3) <= tdev (vals D) n med - mindist (vals D) x med + inject_Z (Z.of_nat n + 1) * rounding n mx)%Q.
Proof.
  intros hd he hmx hs (_ & m2 & m3) h1 hz hx hnx hp. pose proof (proj2 (proj1 (emb_vals hd))) as hv.
  assert (hl : length (med ++ [x]) = S (length med)) by (rewrite app_length; simpl; lia).
  assert (hm' : medoids n (length (med ++ [x])) (med ++ [x])).
  { split; [reflexivity|]. split.
    + apply NoDup_app_intro; [exact m2|repeat constructor; simpl; tauto|]. intros y hy [<-|[]]. contradiction.
    + intros y hy. apply in_app_or in hy as [hy|[<-|[]]]; auto. }
  rewrite <- hl in hs. assert (hk : 2 <= length (med ++ [x])) by lia.
  assert (hne : med <> []) by (intros ->; simpl in h1; lia).
  pose proof (@tdev_snoc_le (vals D) n med x hv hx hne) as h2.
  destruct (C61_fastpam1_pam M n D (med ++ [x]) maxiter mx hd he hmx hs hm' hk hz) as (r1 & r2 & e1 & e2 & h).
  destruct (C61_fasterpam M n D order (med ++ [x]) maxiter mx hd he hmx hs hm' hk hz hp) as (r3 & e3 & h3 & _).
  destruct (h r1 (or_introl eq_refl)) as [q1 _]. destruct (h r2 (or_intror eq_refl)) as [q2 _].
  exists r1, r2, r3. repeat split; auto; lra.
Qed.
Print Assumptions C97_f64.
Definition C97_case_f64 := C97_f64 _ 5 _ [0; 1] [4; 2; 0; 1; 3] 10 1 3 f1_diss
  (f64_exact_from _ _ _ (diss_nonneg _ _ _ f1_diss)) f1_at_most s53 k52 (le_S _ _ (le_n 1)) eq_refl
  ltac:(lia) ltac:(simpl; lia) perm5'.

(** Without such a start, more medoids may mean a larger loss: PAM with BUILD, run until it stops. *)
Definition rows_pm : list (list Z) :=
  [[0; 25; 4; 24; 9; 11; 17]; [25; 0; 1; 7; 14; 20; 29]; [4; 1; 0; 2; 25; 18; 17]; [24; 7; 2; 0; 15; 11; 7];
   [9; 14; 25; 15; 0; 25; 26]; [11; 20; 18; 11; 25; 0; 13]; [17; 29; 17; 7; 26; 13; 0]]%Z.
Theorem C97_pam_refuted : exists (M : Mat Z) D (p p' : pam_result Z), diss_matrix M 7 D /\ symmetric 7 (vals D) /\
  pam M 4 10 = Ok p /\ pam M 5 10 = Ok p' /\ r_iter p < 10 /\ r_iter p' < 10 /\ length (r_med p) = 4 /\ length (r_med p') = 5 /\
  (r_loss p < r_loss p')%Z.
Proof.
  exists (mat_of_rows rows_pm), (entries rows_pm). do 2 eexists. split; [apply rows_diss; [lia|reflexivity]|].
  split.
  { intros x y hx hy. do 7 (destruct x as [|x]; [do 7 (destruct y as [|y]; [vm_compute; reflexivity|]); lia|]). lia. }
  split; [vm_compute; reflexivity|]. split; [vm_compute; reflexivity|]. cbn. repeat split; lia.
Qed.
Print Assumptions C97_pam_refuted.

(** Nor does it hold for the medoid silhouette (where larger is better), whichever object is added: two groups of three objects. *)
Definition rows_gr : list (list Z) :=
  [[0; 1; 1; 100; 100; 100]; [1; 0; 1; 100; 100; 100]; [1; 1; 0; 100; 100; 100];
   [100; 100; 100; 0; 1; 1]; [100; 100; 100; 1; 0; 1]; [100; 100; 100; 1; 1; 0]]%Z.
Theorem C97_msc_refuted : exists (M : Mat Z) D (p : pam_result Q), diss_matrix M 6 D /\ metric 6 (vals D) /\
  fastermsc M [0; 1] 10 = Ok p /\ r_iter p < 10 /\
  forall x, x < 6 -> ~ In x (r_med p) -> exists p' : pam_result Q, fastermsc M (r_med p ++ [x]) 10 = Ok p' /\ r_iter p' < 10 /\
    (r_loss p' < r_loss p)%Q.
Proof.
  exists (mat_of_rows rows_gr), (entries rows_gr). eexists. split; [apply rows_diss; [lia|reflexivity]|].
  split; [apply rows_metric; [lia|reflexivity..]|]. split; [vm_compute; reflexivity|]. split; [simpl; lia|].
  cbn [r_med]. intros x hx hnx. simpl in hnx.
  do 6 (destruct x as [|x]; [first [exfalso; apply hnx; tauto|eexists; split; [vm_compute; reflexivity|]; split; [simpl; lia|vm_compute; reflexivity]]|]).
  lia.
Qed.
Print Assumptions C97_msc_refuted.
