(** FpMain.v -- fasterpam and rand_fasterpam for every k, collected for the property files. *)
From Coq Require Import ZArith QArith Qround Lqa Lia Permutation.
From Verif Require Import Base Num M_Mat M_Util M_Fasterpam Hoare Spec SpecFacts Laws
  PamShape PamExact Reference LocalSearch FpFacts ChooseFacts.
Set Implicit Arguments.
Open Scope nat_scope.

Lemma nearest_cost v n med assi : (forall o, o < n -> nearest v o med (nth o assi 0)) ->
  (assigned_cost v n med assi == tdev v n med)%Q.
Proof.
  intros h. apply sumQ_ext. intros o ho. apply in_seq in ho. symmetry.
  apply nearest_mindist. apply h. lia.
Qed.

(** ** integral dissimilarities *)
Section Integral.
  Variable n : nat.
  Variable v : diss.
  Hypothesis hi : integral n v.

  Lemma mindist_integral o med : o < n -> inr n med -> exists z, (mindist v o med == inject_Z z)%Q.
  Proof.
    intros ho. unfold mindist. induction med as [|m med IH]; intros hin.
    - exists 0%Z. reflexivity.
    - destruct (hi ho (j := m)) as [z hz]; [apply hin; simpl; auto|].
      destruct med as [|m' med].
      + exists z. exact hz.
      + destruct IH as [z' hz']; [intros x hx; apply hin; simpl in *; tauto|].
        change (exists z0, (Qminmax.Qmin (v o m) (minQ (map (v o) (m' :: med))) == inject_Z z0)%Q).
        destruct (Qminmax.Q.min_spec (v o m) (minQ (map (v o) (m' :: med)))) as [[_ e]|[_ e]];
          [exists z|exists z']; eapply Qeq_trans; eauto.
  Qed.

  Lemma sumQ_integral A (f : A -> Q) l : (forall x, In x l -> exists z, (f x == inject_Z z)%Q) ->
    exists z, (sumQ f l == inject_Z z)%Q.
  Proof.
    induction l as [|x l IH]; intros h.
    - exists 0%Z. reflexivity.
    - destruct (h x) as [z hz]; [simpl; auto|]. destruct IH as [z' hz']; [intros; apply h; simpl; auto|].
      exists (z + z')%Z. rewrite inject_Z_plus, <- hz, <- hz'. reflexivity.
  Qed.

  Lemma tdev_integral med : inr n med -> exists z, (tdev v n med == inject_Z z)%Q.
  Proof.
    intros hin. apply sumQ_integral. intros o ho. apply in_seq in ho. apply mindist_integral; auto. lia.
  Qed.

  Lemma row_integral m : m < n -> exists z, (row_total v n m == inject_Z z)%Q.
  Proof. intros hm. apply sumQ_integral. intros o ho. apply in_seq in ho. apply hi; auto. lia. Qed.

  Definition floor_dev (med : list nat) : nat := Z.to_nat (Qfloor (tdev v n med)).

  Lemma floor_dev_val med : dissimilarity n v -> inr n med -> med <> [] ->
    (inject_Z (Z.of_nat (floor_dev med)) == tdev v n med)%Q.
  Proof.
    intros hd hin hne. destruct (tdev_integral hin) as [z hz].
    assert (h0 : (0 <= tdev v n med)%Q) by (apply tdev_nonneg; auto).
    unfold floor_dev. rewrite (Qfloor_comp _ _ hz), Qfloor_Z. rewrite hz in *.
    change 0%Q with (inject_Z 0) in h0. rewrite <- Zle_Qle in h0. rewrite Z2Nat.id by auto. reflexivity.
  Qed.
End Integral.

Lemma fasterpam_counters {Nt Lt : Type} `{HN : NumN Nt} `{HL : NumL Lt} `{HF : FromN Nt Lt}
    (M : Mat Nt) n D med maxiter :
  is_matrix M n D -> sizes n (length med) -> (forall m, In m med -> m < n) -> 2 <= length med ->
  exists r : pam_result Lt, fasterpam M med maxiter = Ok r /\
    r_iter r <= maxiter /\ r_swaps r <= n * r_iter r /\
    (maxiter = 0 -> r_med r = med /\ r_swaps r = 0 /\ r_iter r = 0).
Proof.
  intros HM hs hin hk.
  assert (ho : forall j, In j (seq 0 n) -> j < n) by (intros j hj; apply in_seq in hj; lia).
  pose proof (fasterpam_order_shape (Lt := Lt) HM (seq 0 n) maxiter hs hin hk ho) as h.
  apply oks_inv in h as (r & e & st & _ & -> & h1 & h2 & _). rewrite seq_length in h2.
  exists (mkPR (fp_loss st) (assignment_of (fp_data st)) (fp_iter st) (fp_swaps st) (fp_med st)).
  unfold fasterpam. rewrite (len_n HM). split; [exact e|]. split; [exact h1|]. split; [exact h2|].
  intros ->. cbn [r_med r_swaps r_iter] in *. split; [|lia].
  unfold fasterpam_order in e. replace (length med =? 1) with false in e by (symmetry; apply Nat.eqb_neq; lia).
  apply bind_ok in e as ([l0 d0] & _ & e). apply bind_ok in e as (rl & _ & e).
  cbn [whileM bind] in e. injection e as _ _ _ _ e. auto.
Qed.

Section Main.
  Context {Nt Lt : Type} `{HLL : LossLaws Nt Lt}.
  Variable M : Mat Nt.
  Variable n : nat.
  Variable D : nat -> nat -> Nt.
  Hypothesis HD : diss_matrix M n D.
  Local Notation v := (vals D).

  Lemma vals_dissimilarity : dissimilarity n v.
  Proof.
    destruct HD as (_ & h1 & h2). split.
    - intros i hi. unfold vals. rewrite (h1 i hi). apply vN_zero.
    - intros i j hi hj. apply h2; auto.
  Qed.

  (** everything about a run, for every k *)
  Record fp_all (order med : list nat) (maxiter : nat) (r : pam_result Lt) : Prop := {
    fa_medoids : medoids n (length med) (r_med r);
    fa_assi_len : length (r_assi r) = n;
    fa_nearest : forall o, o < n -> nearest v o (r_med r) (nth o (r_assi r) 0);
    fa_own : 2 <= length med -> forall c, c < length med -> nth (nth c (r_med r) 0) (r_assi r) 0 = c;
    fa_one : length med = 1 -> r_assi r = repeat 0 n;
    fa_loss : 2 <= length med \/ symmetric n v -> (vL (r_loss r) == tdev v n (r_med r))%Q;
    fa_obj : 2 <= length med \/ symmetric n v -> (tdev v n (r_med r) <= tdev v n med)%Q;
    fa_strict : 2 <= length med \/ symmetric n v ->
      0 < r_swaps r -> (tdev v n (r_med r) < tdev v n med)%Q;
    fa_same : r_swaps r = 0 -> r_med r = med;
    fa_iter : r_iter r <= Nat.max maxiter (if length med =? 1 then 1 else 0);
    fa_iterswap : r_iter r <= S (r_swaps r);
    fa_bound : r_swaps r < n ^ length med;
    fa_int : 2 <= length med \/ symmetric n v -> integral n v ->
      (inject_Z (Z.of_nat (r_swaps r)) + tdev v n (r_med r) <= tdev v n med)%Q;
    fa_opt : 2 <= length med \/ symmetric n v -> r_iter r < maxiter -> Permutation order (seq 0 n) ->
      swap_optimal v n (r_med r);
    fa_fix : 2 <= length med \/ symmetric n v -> swap_optimal v n med -> 0 < maxiter ->
      r_swaps r = 0 /\ r_iter r = 1;
    fa_opt0 : 2 <= length med \/ symmetric n v -> r_swaps r = 0 -> 0 < maxiter -> Permutation order (seq 0 n) ->
      swap_optimal v n med;
    fa_ref : 2 <= length med -> (r_med r, r_swaps r, r_iter r) = eager_swaps (dev_better v n) order med maxiter
  }.

  Lemma length_one A (l : list A) : length l = 1 -> exists x, l = [x].
  Proof. destruct l as [|x [|y l]]; simpl; try lia. eauto. Qed.

  Lemma int_step a b : (exists z, (a == inject_Z z)%Q) -> (exists z, (b == inject_Z z)%Q) ->
    (a < b)%Q -> (1 + a <= b)%Q.
  Proof.
    intros [x hx] [y hy] h. rewrite hx, hy in *. rewrite <- Zlt_Qlt in h.
    change 1%Q with (inject_Z 1). rewrite <- inject_Z_plus, <- Zle_Qle. lia.
  Qed.

  Lemma rand_fasterpam_all order med maxiter :
    sizes n (length med) -> medoids n (length med) med ->
    NoDup order -> (forall j, In j order -> j < n) ->
    exists r, rand_fasterpam M order med maxiter = Ok r /\ fp_all order med maxiter r.
  Proof.
    intros hs hm hnd ho. pose proof hs as [hk _]. destruct (Nat.eq_dec (length med) 1) as [e1|e1].
    - pose proof (single_medoid_ok HD e1 (proj2 (proj2 hm))) as h.
      apply oks_inv in h as (r & e & h1 & h2 & best & h3 & h4 & h5 & h6 & h7 & h8 & _).
      exists r. split.
      { unfold rand_fasterpam, fasterpam_order. rewrite e1. simpl (1 =? 1). auto. }
      destruct (length_one med e1) as [x ->]. assert (hx : x < n) by (apply (proj2 (proj2 hm)); simpl; auto).
      cbn [nth] in *.
      assert (e0 : forall i, nth i (repeat 0 n) 0 = 0).
      { generalize n. clear. intros k. induction k; destruct i; simpl; auto. }
      constructor; cbn [length] in *; rewrite ?h4, ?h1; auto.
      + split; [auto|]. split; [repeat constructor; auto|]. intros m [<-|[]]. auto.
      + apply repeat_length.
      + intros o _. rewrite e0. split; [simpl; lia|]. intros c hc. simpl in hc.
        assert (c = 0) as -> by lia. lra.
      + intros hh. lia.
      + intros [hsy|hsy]; [simpl in hsy; lia|]. rewrite h6. apply row_sum_tdev; auto.
      + intros [hsy|hsy]; [simpl in hsy; lia|]. rewrite <- !row_sum_tdev by auto. auto.
      + intros [hsy|hsy] hsw; [simpl in hsy; lia|]. rewrite <- !row_sum_tdev by auto.
        destruct h7 as [h7|h7]; [|auto]. rewrite h5 in hsw. subst best. rewrite Nat.eqb_refl in hsw. lia.
      + intros hsw. rewrite h5 in hsw. destruct (Nat.eqb_spec best x); [congruence|discriminate].
      + rewrite h2. simpl. lia.
      + rewrite h2. lia.
      + rewrite h5. rewrite Nat.pow_1_r. destruct (Nat.eqb_spec best x); lia.
      + intros [hsy|hsy]; [simpl in hsy; lia|]. intros hint. rewrite <- !row_sum_tdev by auto. rewrite h5.
        destruct (Nat.eqb_spec best x) as [->|hne].
        * change (inject_Z (Z.of_nat 0)) with 0%Q. lra.
        * change (inject_Z (Z.of_nat 1)) with 1%Q. destruct h7 as [h7|h7]; [tauto|].
          apply int_step; auto; apply (row_integral hint); auto.
      + intros [hsy|hsy]; [simpl in hsy; lia|]. intros _ _ b j hb hj. simpl in hb. assert (b = 0) as -> by lia.
        unfold swap. simpl. rewrite <- !row_sum_tdev by auto. auto.
      + intros [hsy|hsy]; [simpl in hsy; lia|]. intros hopt _. split; [|auto]. rewrite h5.
        destruct (Nat.eqb_spec best x) as [->|hne]; [auto|]. destruct h7 as [h7|h7]; [tauto|]. exfalso.
        specialize (hopt 0 best ltac:(simpl; lia) h3). unfold swap in hopt. simpl in hopt.
        rewrite <- !row_sum_tdev in hopt by auto. lra.
      + intros [hsy|hsy]; [simpl in hsy; lia|]. intros h0 _ _ b j hb hj. simpl in hb. assert (b = 0) as -> by lia.
        rewrite h5 in h0. destruct (Nat.eqb_spec best x) as [->|hne]; [|discriminate].
        unfold swap. simpl. rewrite <- !row_sum_tdev by auto. auto.
      + intros hh. lia.
    - assert (hk2 : 2 <= length med) by lia.
      pose proof (fasterpam_order_ok HD maxiter hs hm hk2 hnd ho (@measure_better _ _ _ n D (length med))) as h.
      apply oks_inv in h as (r & e & [q1 q2 q3 q4 q5 q6 q7 q8 q9 q10 q11 q12] & hb).
      exists r. split; [exact e|].
      assert (hne : forall l : list nat, length l = length med -> l <> []).
      { intros l hl hn. subst l. simpl in hl. lia. }
      constructor; auto.
      + lia.
      + lia.
      + pose proof (better_bound (tdev v n) med eq_refl (proj2 (proj2 hm))). lia.
      + intros _ hint.
        pose proof vals_dissimilarity as hdis.
        assert (hf : measure_ok n D (length med) (floor_dev n v)).
        { intros m1 m2 (l1 & _ & i1) (l2 & _ & i2) hlt. apply Nat2Z.inj_lt. rewrite Zlt_Qlt.
          rewrite !floor_dev_val by auto. auto. }
        pose proof (fasterpam_order_ok HD maxiter hs hm hk2 hnd ho hf) as h.
        apply oks_elim with (2 := e) in h. destruct h as [_ h].
        rewrite <- (floor_dev_val hint hdis (proj2 (proj2 q1)) (hne _ (proj1 q1))).
        rewrite <- (floor_dev_val hint hdis (proj2 (proj2 hm)) (hne _ eq_refl)).
        rewrite <- inject_Z_plus, <- Zle_Qle. lia.
      + intros _ hlt hperm b j hb1 hj. apply q11; auto.
        * apply Permutation_in with (l := seq 0 n); [apply Permutation_sym; auto|]. apply in_seq. lia.
        * rewrite (proj1 q1) in hb1. auto.
      + intros _ h0 hmi hperm b j hb1 hj. rewrite <- (q8 h0) at 1 2. apply q11; auto.
        apply Permutation_in with (l := seq 0 n); [apply Permutation_sym; auto|]. apply in_seq. lia.
  Qed.

  Lemma fasterpam_all med maxiter :
    sizes n (length med) -> medoids n (length med) med ->
    exists r, fasterpam M med maxiter = Ok r /\ fp_all (seq 0 n) med maxiter r.
  Proof.
    intros hs hm. unfold fasterpam. rewrite (len_n (proj1 HD)).
    apply rand_fasterpam_all; auto; [apply seq_NoDup|]. intros j hj. apply in_seq in hj. lia.
  Qed.
End Main.
