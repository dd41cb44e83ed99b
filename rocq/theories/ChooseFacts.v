(** ChooseFacts.v -- choose_medoid_within_partition (util.rs:110-145) and the case k = 1. *)
From Coq Require Import ZArith QArith Lqa Lia.
From Verif Require Import Reference Base Num M_Mat M_Util M_Fasterpam Hoare Spec SpecFacts Laws PamShape PamExact.
Set Implicit Arguments.
Open Scope nat_scope.

Section Shape.
  Context {Nt Lt : Type} `{HNN : NumN Nt} `{HNL : NumL Lt} `{HFN : FromN Nt Lt}.
  Variable M : Mat Nt.
  Variable n : nat.
  Variable D : nat -> nat -> Nt.
  Hypothesis HM : is_matrix M n D.

  Lemma member_sum_shape assi m c : length assi = n -> c < n ->
    oks (member_sum (Lt := Lt) M assi m c) (fun _ => True).
  Proof.
    intros hl hc. unfold member_sum. apply foldM_inv; auto.
    intros [i a] s hin _. apply In_enum in hin. apply nth_error_lt in hin.
    destruct (negb (c =? i) && (a =? m)); simpl; auto.
    rewrite (get_ok HM) by lia. simpl. auto.
  Qed.

  Lemma choose_shape assi med m : length assi = n -> m < length med -> inr n med ->
    oks (choose_medoid_within_partition (Lt := Lt) M assi med m) (fun '(med', ch, _) =>
      exists best, best < n /\ med' = set_nth med m best /\ ch = negb (best =? nth m med 0) /\
        (best = nth m med 0 \/ nth best assi 0 = m)).
  Proof.
    intros hl hm hin. unfold choose_medoid_within_partition.
    rewrite idx_nth with (d := 0) by auto. cbn [bind].
    assert (hf : nth m med 0 < n) by (apply inr_nth; auto).
    eapply oks_bind; [apply member_sum_shape; auto|]. intros s0 _.
    eapply oks_bind.
    - apply foldM_inv with (I := fun (bs : nat * Lt) => fst bs < n /\
        (fst bs = nth m med 0 \/ nth (fst bs) assi 0 = m)); auto.
      intros [j aj] bs hj hb. apply In_enum in hj. pose proof (nth_error_lt _ _ hj) as hlt.
      destruct (negb (j =? nth m med 0) && (aj =? m)) eqn:e; [|simpl; auto].
      eapply oks_bind; [apply member_sum_shape; auto; lia|]. intros sj _.
      destruct (lltb sj (snd bs)); simpl; auto. split; [lia|]. right.
      apply nth_error_nth with (d := 0) in hj. apply andb_true_iff in e as [_ e].
      apply Nat.eqb_eq in e. congruence.
    - intros [best sb] [hb1 hb2]. cbn [fst] in *. rewrite upd_ok by auto. cbn [bind oks].
      exists best. auto.
  Qed.

  Lemma single_medoid_shape med : length med = 1 -> inr n med ->
    oks (single_medoid (Lt := Lt) M med) (fun r =>
      r_assi r = repeat 0 n /\ r_iter r = 1 /\
      exists best, best < n /\ r_med r = [best] /\
        r_swaps r = if best =? nth 0 med 0 then 0 else 1).
  Proof.
    intros hl hin. unfold single_medoid. rewrite (len_n HM).
    pose proof (choose_shape (repeat 0 n) (med := med) (m := 0) (repeat_length 0 n) ltac:(lia) hin) as h.
    apply oks_inv in h as ([[med' ch] loss] & -> & best & hb & -> & -> & _).
    cbn [bind oks r_assi r_iter r_med r_swaps]. split; [auto|]. split; [auto|].
    exists best. split; [auto|]. destruct med as [|x [|y l]]; simpl in hl; try lia.
    simpl. split; [auto|]. destruct (best =? x); auto.
  Qed.
End Shape.

Section Exact.
  Context {Nt Lt : Type} `{HLL : LossLaws Nt Lt}.
  Variable M : Mat Nt.
  Variable n : nat.
  Variable D : nat -> nat -> Nt.
  Hypothesis HD : diss_matrix M n D.
  Local Notation v := (vals D).

  Lemma member_sum_ok assi m c : length assi = n -> c < n ->
    oks (member_sum (Lt := Lt) M assi m c) (fun s => (vL s == cluster_cost v n assi m c)%Q).
  Proof.
    intros hl hc. pose proof (proj1 HD) as HM. unfold member_sum, cluster_cost. rewrite <- hl.
    apply foldM_enum with (I := fun t (s : Lt) =>
      (vL s == sumQ (fun i => if (nth i assi 0 =? m)%nat then v c i else 0) (seq 0 t))%Q).
    - apply vL_zero.
    - intros i a s hi hs. pose proof (nth_error_lt _ _ hi) as hlt.
      pose proof (nth_error_nth _ _ 0 hi) as hn.
      assert (e : (sumQ (fun i => if (nth i assi 0 =? m)%nat then v c i else 0) (seq 0 (S i)) ==
                   vL s + (if (a =? m)%nat then v c i else 0))%Q).
      { rewrite sumQ_seq_S, hs, hn. reflexivity. }
      destruct (c =? i) eqn:eci; simpl.
      + apply Nat.eqb_eq in eci. subst i. rewrite e.
        destruct (emb_vals HD) as [he hg]. pose proof (emb_diag he hc). destruct (a =? m); lra.
      + destruct (a =? m); simpl.
        * rewrite (get_ok HM) by lia. cbn [bind oks]. rewrite e, vL_add.
          rewrite (vL_D HD) by lia. lra.
        * rewrite e. lra.
  Qed.

  Lemma choose_ok assi med m : length assi = n -> m < length med -> inr n med ->
    oks (choose_medoid_within_partition (Lt := Lt) M assi med m) (fun '(med', ch, loss) =>
      exists best, best < n /\ med' = set_nth med m best /\ ch = negb (best =? nth m med 0) /\
        (vL loss == cluster_cost v n assi m best)%Q /\
        (best = nth m med 0 \/ (nth best assi 0 = m /\
           (cluster_cost v n assi m best < cluster_cost v n assi m (nth m med 0%nat))%Q)) /\
        (forall j, j < n -> nth j assi 0 = m ->
           (cluster_cost v n assi m best <= cluster_cost v n assi m j)%Q) /\
        best = center v n assi m (nth m med 0)).
  Proof.
    intros hl hm hin. unfold choose_medoid_within_partition.
    rewrite idx_nth with (d := 0) by auto. cbn [bind].
    assert (hf : nth m med 0 < n) by (apply inr_nth; auto).
    eapply oks_bind; [apply member_sum_ok; auto|]. intros s0 hs0.
    eapply oks_bind.
    - apply foldM_enum with (I := fun t (bs : nat * Lt) => fst bs < n /\
        (vL (snd bs) == cluster_cost v n assi m (fst bs))%Q /\
        (cluster_cost v n assi m (fst bs) <= cluster_cost v n assi m (nth m med 0%nat))%Q /\
        (fst bs = nth m med 0 \/ (nth (fst bs) assi 0 = m /\
           (cluster_cost v n assi m (fst bs) < cluster_cost v n assi m (nth m med 0%nat))%Q)) /\
        (forall j, j < t -> nth j assi 0 = m ->
           (cluster_cost v n assi m (fst bs) <= cluster_cost v n assi m j)%Q) /\
        fst bs = first_best (cost_better v n assi m) (filter (fun j => nth j assi 0 =? m) (seq 0 t)) (nth m med 0)).
      + cbn [fst snd]. split; [auto|]. split; [auto|]. split; [lra|]. split; [auto|]. split; [intros; lia|reflexivity].
      + intros j aj bs hj (h1 & h2 & h3 & h4 & h5 & h6).
        rewrite seq_S, filter_app, first_best_app, <- h6. simpl plus.
        pose proof (nth_error_lt _ _ hj) as hlt.
        pose proof (nth_error_nth _ _ 0 hj) as hn.
        cbn [filter]. rewrite hn.
        destruct (negb (j =? nth m med 0) && (aj =? m)) eqn:e.
        * apply andb_true_iff in e as [_ e]. rewrite e. apply Nat.eqb_eq in e.
          cbn [first_best fold_left].
          eapply oks_bind; [apply member_sum_ok; auto; lia|]. intros sj hsj.
          destruct (lltb sj (snd bs)) eqn:el; cbn [oks fst snd].
          -- apply lltb_spec in el. rewrite hsj, h2 in el.
             split; [lia|]. split; [auto|]. split; [lra|].
             split; [right; split; [congruence|lra]|].
             split; [|unfold cost_better; rewrite (proj2 (Qlt_bool_iff _ _)) by exact el; reflexivity].
             intros j' hj' ej'. destruct (Nat.eq_dec j' j) as [->|]; [lra|].
             specialize (h5 j' ltac:(lia) ej'). lra.
          -- assert (hle : (vL (snd bs) <= vL sj)%Q).
             { apply Qnot_lt_le. intros c. apply lltb_spec in c. congruence. }
             rewrite hsj, h2 in hle.
             split; [lia|]. split; [auto|]. split; [auto|]. split; [auto|].
             split; [|unfold cost_better; rewrite (proj2 (Qlt_bool_false _ _)) by exact hle; reflexivity].
             intros j' hj' ej'. destruct (Nat.eq_dec j' j) as [->|]; [lra|].
             apply h5; auto. lia.
        * cbn [oks]. split; [lia|]. split; [auto|]. split; [auto|]. split; [auto|].
          split.
          2:{ destruct (aj =? m) eqn:ea; [|reflexivity]. rewrite andb_true_r in e.
              apply negb_false_iff, Nat.eqb_eq in e. cbn [first_best fold_left]. unfold cost_better. subst j.
              rewrite (proj2 (Qlt_bool_false _ _)) by exact h3. reflexivity. }
          intros j' hj' ej'. destruct (Nat.eq_dec j' j) as [->|]; [|apply h5; auto; lia].
          apply andb_false_iff in e as [e|e].
          -- apply negb_false_iff, Nat.eqb_eq in e. subst j. auto.
          -- apply Nat.eqb_neq in e. congruence.
    - intros [best sb] (h1 & h2 & h3 & h4 & h5 & h6). cbn [fst snd] in *.
      rewrite upd_ok by auto. cbn [bind oks].
      exists best. split; [auto|]. split; [auto|]. split; [auto|]. split; [auto|]. split; [auto|].
      rewrite hl in h5, h6. auto.
  Qed.

  (** sum of a row of the matrix *)
  Definition row_sum (m : nat) : Q := sumQ (fun i => v m i) (seq 0 n).

  Lemma cluster_cost_all m : (cluster_cost v n (repeat 0%nat n) 0 m == row_sum m)%Q.
  Proof.
    apply sumQ_ext. intros i hi. 
    assert (e : nth i (repeat 0 n) 0 = 0).
    { generalize n. clear. intros k. revert i. induction k; destruct i; simpl; auto. }
    rewrite e. reflexivity.
  Qed.

  Lemma single_medoid_ok med : length med = 1 -> inr n med ->
    oks (single_medoid (Lt := Lt) M med) (fun r =>
      r_assi r = repeat 0 n /\ r_iter r = 1 /\
      exists best, best < n /\ r_med r = [best] /\
        r_swaps r = (if best =? nth 0 med 0 then 0 else 1) /\
        (vL (r_loss r) == row_sum best)%Q /\
        (best = nth 0 med 0 \/ (row_sum best < row_sum (nth 0 med 0%nat))%Q) /\
        (forall j, j < n -> (row_sum best <= row_sum j)%Q) /\
        best = first_best (fun a b => Qlt_bool (row_sum a) (row_sum b)) (seq 0 n) (nth 0 med 0)).
  Proof.
    intros hl hin. pose proof (proj1 HD) as HM. unfold single_medoid. rewrite (len_n HM).
    pose proof (choose_ok (repeat 0 n) (med := med) (m := 0) (repeat_length 0 n) ltac:(lia) hin) as h.
    apply oks_inv in h as ([[med' ch] loss] & -> & best & hb & -> & -> & h1 & h2 & h3 & h4).
    cbn [bind oks r_assi r_iter r_med r_swaps r_loss]. split; [auto|]. split; [auto|].
    exists best. split; [auto|].
    assert (e0 : forall i, nth i (repeat 0 n) 0 = 0).
    { generalize n. clear. intros k. induction k; destruct i; simpl; auto. }
    rewrite cluster_cost_all in h1.
    destruct med as [|x [|y l]]; simpl in hl; try lia.
    simpl. split; [auto|]. split; [destruct (best =? x); auto|]. split; [auto|]. split; [|split].
    - simpl in h2. destruct h2 as [->|[_ h2]]; auto. rewrite !cluster_cost_all in h2. auto.
    - intros j hj. specialize (h3 j hj (e0 j)). rewrite !cluster_cost_all in h3. auto.
    - rewrite h4. unfold center, members. simpl nth.
      assert (ef : forall l, filter (fun j => nth j (repeat 0 n) 0 =? 0) l = l).
      { induction l as [|a l IH]; [auto|]. cbn [filter]. rewrite e0. simpl. rewrite IH. auto. }
      rewrite ef. apply first_best_ext. intros a b. apply eq_true_iff_eq. unfold cost_better.
      rewrite !Qlt_bool_iff, !cluster_cost_all. reflexivity.
  Qed.

  Lemma row_sum_tdev m : symmetric n v -> m < n -> (row_sum m == tdev v n [m])%Q.
  Proof.
    intros hs hm. apply sumQ_ext. intros i hi. apply in_seq in hi. unfold mindist. simpl.
    apply hs; auto. lia.
  Qed.
End Exact.
