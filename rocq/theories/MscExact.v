(** MscExact.v -- exact arithmetic: what the swap evaluations of fastermsc.rs and pammedsil.rs
    compute. *)
From Coq Require Import ZArith QArith Lqa Lia.
From Verif Require Import Base Num M_Mat M_Util M_Fasterpam M_Silhouette M_Msc M_Pammedsil Hoare
  Spec SpecFacts Laws PamShape PamExact SortFacts SilFacts MscShape.
Set Implicit Arguments.
Open Scope nat_scope.

(** sum of the ratios: [n (1 - med_sil)] *)
Definition rtot (v : diss) (n : nat) (med : list nat) : Q :=
  sumQ (fun o => near_ratio v o med) (seq 0 n).

Lemma med_sil_rtot v n med : (med_sil v n med == 1 - rtot v n med / inject_Z (Z.of_nat n))%Q.
Proof. reflexivity. Qed.

Lemma rtot_le v n med med' : 1 <= n ->
  ((med_sil v n med <= med_sil v n med') <-> (rtot v n med' <= rtot v n med))%Q.
Proof.
  intros hn. rewrite !med_sil_rtot.
  assert (hz : (0 < inject_Z (Z.of_nat n))%Q) by (change 0%Q with (inject_Z 0); rewrite <- Zlt_Qlt; lia).
  pose proof (Qinv_lt_0_compat _ hz) as hi. unfold Qdiv.
  split; intros h.
  - assert (h' : (rtot v n med' * / inject_Z (Z.of_nat n) <= rtot v n med * / inject_Z (Z.of_nat n))%Q) by lra.
    apply Qmult_le_r in h'; auto.
  - apply (Qmult_le_r _ _ _ hi) in h. lra.
Qed.

Lemma rtot_lt v n med med' : 1 <= n ->
  ((med_sil v n med < med_sil v n med') <-> (rtot v n med' < rtot v n med))%Q.
Proof.
  intros hn. pose proof (rtot_le v med' med hn) as h.
  split; intros h1; apply Qnot_le_lt; intros h2; apply h in h2; lra.
Qed.

(** ** effect of a swap on the ratio of one object *)
Lemma near_ratio_swap v o med a b c s j :
  a < length med -> b < length med -> c < length med -> a <> b -> c <> a -> c <> b ->
  two_min v med o (length med) a b -> third_min v med o (length med) a b c -> s < length med ->
  let q := v o j in let x := v o (nth a med 0%nat) in let y := v o (nth b med 0%nat) in
  let z := v o (nth c med 0%nat) in
  (near_ratio v o (swap med s j) ==
   if s =? a then (if Qlt_le_dec q y then q / y else if Qlt_le_dec q z then y / q else y / z)
   else if s =? b then (if Qlt_le_dec q x then q / x else if Qlt_le_dec q z then x / q else x / z)
   else (if Qlt_le_dec q x then q / x else if Qlt_le_dec q y then x / q else x / y))%Q.
Proof.
  intros ha hb hc hab hca hcb [m1 m2] m3 hs q x y z. rewrite swap_set_nth by auto.
  assert (hl : length (set_nth med s j) = length med) by apply length_set_nth.
  assert (hnb : v o (nth s (set_nth med s j) 0) = q) by (rewrite nth_set_nth_eq; auto).
  assert (hnc : forall c, c <> s -> v o (nth c (set_nth med s j) 0) = v o (nth c med 0))
    by (intros; rewrite nth_set_nth_neq; auto).
  assert (hxy : (x <= y)%Q) by (apply m1; auto).
  assert (hyz : (y <= z)%Q) by (apply m2; auto).
  assert (T : forall p r, p < length med -> r < length med -> p <> r ->
    (v o (nth p (set_nth med s j) 0%nat) <= v o (nth r (set_nth med s j) 0%nat))%Q ->
    (forall i, i < length med -> i <> p -> i <> r -> (v o (nth r (set_nth med s j) 0%nat) <= v o (nth i (set_nth med s j) 0%nat))%Q) ->
    (near_ratio v o (set_nth med s j) == v o (nth p (set_nth med s j) 0%nat) / v o (nth r (set_nth med s j) 0%nat))%Q).
  { intros p r hp hr hpr h1 h2. apply near_ratio_pos; rewrite ?hl; auto. }
  assert (R : forall i, i < length med -> i <> a -> i <> b -> (z <= v o (nth i med 0%nat))%Q)
    by (intros; apply m3; auto).
  assert (R2 : forall i, i < length med -> i <> a -> (y <= v o (nth i med 0%nat))%Q)
    by (intros; apply m2; auto).
  assert (R1 : forall i, i < length med -> (x <= v o (nth i med 0%nat))%Q)
    by (intros; apply m1; auto).
  destruct (s =? a) eqn:ea; [apply Nat.eqb_eq in ea; subst s|apply Nat.eqb_neq in ea;
    destruct (s =? b) eqn:eb; [apply Nat.eqb_eq in eb; subst s|apply Nat.eqb_neq in eb]].
  - destruct (Qlt_le_dec q y) as [h|h]; [|destruct (Qlt_le_dec q z) as [h'|h']].
    + rewrite (T a b); rewrite ?hnb, ?hnc; auto; try reflexivity; try (unfold q, x, y, z in *; lra).
      intros i hi h1 h2. rewrite hnc by auto. auto.
    + rewrite (T b a); rewrite ?hnb, ?hnc; auto; try reflexivity; try (unfold q, x, y, z in *; lra).
      intros i hi h1 h2. rewrite hnc by auto. specialize (R i hi h2 h1). unfold q, x, y, z in *. lra.
    + rewrite (T b c); rewrite ?hnb, ?hnc; auto; try reflexivity; try (unfold q, x, y, z in *; lra).
      intros i hi h1 h2. destruct (Nat.eq_dec i a) as [->|]; [rewrite hnb; auto|]. rewrite hnc; auto.
  - destruct (Qlt_le_dec q x) as [h|h]; [|destruct (Qlt_le_dec q z) as [h'|h']].
    + rewrite (T b a); rewrite ?hnb, ?hnc; auto; try reflexivity; try (unfold q, x, y, z in *; lra).
      intros i hi h1 h2. rewrite hnc by auto. auto.
    + rewrite (T a b); rewrite ?hnb, ?hnc; auto; try reflexivity; try (unfold q, x, y, z in *; lra).
      intros i hi h1 h2. rewrite hnc by auto. specialize (R i hi h1 h2). unfold q, x, y, z in *. lra.
    + rewrite (T a c); rewrite ?hnb, ?hnc; auto; try reflexivity; try (unfold q, x, y, z in *; lra).
      intros i hi h1 h2. destruct (Nat.eq_dec i b) as [->|]; [rewrite hnb; auto|]. rewrite hnc; auto.
  - destruct (Qlt_le_dec q x) as [h|h]; [|destruct (Qlt_le_dec q y) as [h'|h']].
    + rewrite (T s a); rewrite ?hnb, ?hnc; auto; try reflexivity; try (unfold q, x, y, z in *; lra).
      intros i hi h1 h2. rewrite hnc by auto. auto.
    + rewrite (T a s); rewrite ?hnb, ?hnc; auto; try reflexivity; try (unfold q, x, y, z in *; lra).
      intros i hi h1 h2. rewrite hnc by auto. specialize (R2 i hi h1). unfold q, x, y, z in *. lra.
    + rewrite (T a b); rewrite ?hnb, ?hnc; auto; try reflexivity; try (unfold q, x, y, z in *; lra).
      intros i hi h1 h2. destruct (Nat.eq_dec i s) as [->|]; [rewrite hnb; auto|]. rewrite hnc; auto.
Qed.

(** two medoids *)
Lemma near_ratio_swap2 v o med a b s j :
  length med = 2 -> a < 2 -> b < 2 -> a <> b -> s < 2 ->
  let q := v o j in let x := v o (nth a med 0%nat) in let y := v o (nth b med 0%nat) in
  (near_ratio v o (swap med s j) ==
   if s =? a then (if Qlt_le_dec q y then q / y else y / q)
   else (if Qlt_le_dec q x then q / x else x / q))%Q.
Proof.
  intros hl ha hb hab hs q x y. rewrite swap_set_nth by lia.
  assert (hl2 : length (set_nth med s j) = 2) by (rewrite length_set_nth; auto).
  assert (hnb : v o (nth s (set_nth med s j) 0) = q) by (rewrite nth_set_nth_eq; auto; lia).
  assert (hnc : forall c, c <> s -> v o (nth c (set_nth med s j) 0) = v o (nth c med 0))
    by (intros; rewrite nth_set_nth_neq; auto).
  assert (T : forall p r, p < 2 -> r < 2 -> p <> r ->
    (v o (nth p (set_nth med s j) 0%nat) <= v o (nth r (set_nth med s j) 0%nat))%Q ->
    (near_ratio v o (set_nth med s j) == v o (nth p (set_nth med s j) 0%nat) / v o (nth r (set_nth med s j) 0%nat))%Q).
  { intros p r hp hr hpr h1. apply near_ratio_pos; rewrite ?hl2; auto. intros; lia. }
  destruct (s =? a) eqn:ea; [apply Nat.eqb_eq in ea; subst s|apply Nat.eqb_neq in ea;
    assert (s = b) as -> by lia].
  - destruct (Qlt_le_dec q y) as [h|h].
    + rewrite (T a b); rewrite ?hnb, ?hnc; auto; try reflexivity; unfold q, x, y in *; lra.
    + rewrite (T b a); rewrite ?hnb, ?hnc; auto. reflexivity.
  - destruct (Qlt_le_dec q x) as [h|h].
    + rewrite (T b a); rewrite ?hnb, ?hnc; auto; try reflexivity; unfold q, x, y in *; lra.
    + rewrite (T a b); rewrite ?hnb, ?hnc; auto. reflexivity.
Qed.

(** with two medoids, replacing one by a copy of the other is no improvement *)
Lemma near_ratio_copy2 v o med s j :
  length med = 2 -> s < 2 -> In j med -> (forall m, In m med -> 0 <= v o m)%Q ->
  (near_ratio v o med <= near_ratio v o (swap med s j))%Q.
Proof.
  intros hl hs hj hpos.
  destruct med as [|m0 [|m1 [|]]]; simpl in hl; try lia.
  pose proof (hpos m0 (or_introl eq_refl)) as p0. pose proof (hpos m1 (or_intror (or_introl eq_refl))) as p1.
  assert (hr := @near_ratio_range v o [m0; m1] ltac:(simpl; lia) hpos).
  assert (C : forall d, (0 <= d)%Q -> (d == 0 -> near_ratio v o [m0; m1] == 0)%Q ->
              (near_ratio v o [m0; m1] <= d / d)%Q).
  { intros d hd hz. destruct (Qlt_le_dec 0 d) as [h|h].
    - assert (e : (d / d == 1)%Q) by (field; lra). rewrite e. lra.
    - assert (e : (d == 0)%Q) by lra. rewrite (hz e), e. unfold Qdiv. lra. }
  assert (Z0 : (v o m0 == 0 -> near_ratio v o [m0; m1] == 0)%Q).
  { intros e. rewrite (@near_ratio_pos v o [m0; m1] 0 1); simpl; auto; try lia; try lra; try (intros; lia).
    rewrite e. unfold Qdiv. lra. }
  assert (Z1 : (v o m1 == 0 -> near_ratio v o [m0; m1] == 0)%Q).
  { intros e. rewrite (@near_ratio_pos v o [m0; m1] 1 0); simpl; auto; try lia; try lra; try (intros; lia).
    rewrite e. unfold Qdiv. lra. }
  assert (E : swap [m0; m1] s j = [m0; m1] \/ swap [m0; m1] s j = [m0; m0] \/ swap [m0; m1] s j = [m1; m1]).
  { destruct s as [|[|]]; [| |lia]; cbn; destruct hj as [<-|[<-|[]]]; auto. }
  destruct E as [->|[->| ->]].
  - lra.
  - rewrite (@near_ratio_pos v o [m0; m0] 0 1); simpl; auto; try lia; try lra; try (intros; lia).
  - rewrite (@near_ratio_pos v o [m1; m1] 0 1); simpl; auto; try lia; try lra; try (intros; lia).
Qed.

Lemma rtot_copy2 v n med s j : dissimilarity n v -> (forall m, In m med -> m < n) ->
  length med = 2 -> s < 2 -> In j med -> (rtot v n med <= rtot v n (swap med s j))%Q.
Proof.
  intros hd hin hl hs hj. apply sumQ_le. intros o ho. apply in_seq in ho.
  apply near_ratio_copy2; auto. intros m hm. apply hd; auto. lia.
Qed.

Section Exact.
  Context {Nt Lt : Type} `{HLL : LossLaws Nt Lt} `{HAL : !AddLaws Nt} `{HDL : !DivLaws Nt Lt}.
  Variable M : Mat Nt.
  Variable n : nat.
  Variable D : nat -> nat -> Nt.
  Hypothesis HD : diss_matrix M n D.

  Let v := vals D.
  Let HM : is_matrix M n D := proj1 HD.
  Let Hemb : Emb n D v := proj1 (emb_vals HD).
  Let Hdg : Dg n D := proj2 (emb_vals HD).

  Local Notation data3_ok := (data3_ok n D True).
  Local Notation rec3 := (rec3 n D True).

  Lemma vL_ratio (x y : Nt) : okN x -> okN y -> (vL (ratio x y : Lt) == vN x / vN y)%Q.
  Proof.
    intros hx hy. unfold ratio.
    destruct (nis_zero x) eqn:ex; [apply nis_zero_spec in ex; auto|].
    - cbn [orb]. rewrite vL_zero, ex. unfold Qdiv. lra.
    - destruct (nis_zero y) eqn:ey; [apply nis_zero_spec in ey; auto|]; cbn [orb].
      + rewrite vL_zero, ey. unfold Qdiv. change (/ 0)%Q with 0%Q. lra.
      + assert (hz : (~ vN y == 0)%Q) by (intros c; apply nis_zero_spec in c; auto; congruence).
        rewrite vL_div; [rewrite !vL_from by auto; reflexivity|]. rewrite vL_from; auto.
  Qed.

  Lemma vL_ratio_D x y x' y' : x < n -> y < n -> x' < n -> y' < n ->
    (vL (ratio (D x y) (D x' y') : Lt) == v x y / v x' y')%Q.
  Proof. intros. apply vL_ratio; apply okD with (1 := HD); auto. Qed.

  (** ** the records *)
  Definition rec_x2 (med : list nat) (o : nat) (r : Reco Nt) (a b : nat) : Prop :=
    a < length med /\ b < length med /\ a <> b /\ di (near3 r) = Some a /\ di (seco3 r) = Some b /\
    dd (near3 r) = D o (nth a med 0) /\ dd (seco3 r) = D o (nth b med 0) /\
    two_min v med o (length med) a b.

  Definition rec_x3 (med : list nat) (o : nat) (r : Reco Nt) (a b c : nat) : Prop :=
    rec_x2 med o r a b /\ c < length med /\ c <> a /\ c <> b /\
    dd (third3 r) = D o (nth c med 0) /\ third_min v med o (length med) a b c.

  Lemma rec3_x2 med o r : rec3 (length med) med o r -> exists a b, rec_x2 med o r a b.
  Proof.
    intros (a & s & h1 & h2 & h3 & [h4 h5] & [h6 h7] & h8 & _). exists a, s.
    unfold rec_x2. auto 12.
  Qed.

  Lemma rec3_x3 med o r : 3 <= length med -> rec3 (length med) med o r ->
    exists a b c, rec_x3 med o r a b c.
  Proof.
    intros hk (a & s & h1 & h2 & h3 & [h4 h5] & [h6 h7] & h8 & [[h _]|(_ & c & c1 & c2 & c3 & [c4 c5] & c6)]);
      [lia|].
    exists a, s, c. unfold rec_x3, rec_x2. auto 20.
  Qed.

  Lemma rec_x2_ratio med o r a b : rec_x2 med o r a b ->
    (near_ratio v o med == v o (nth a med 0%nat) / v o (nth b med 0%nat))%Q /\ nearest v o med a.
  Proof.
    intros (h1 & h2 & h3 & h4 & h5 & h6 & h7 & [h8 h9]). split.
    - apply near_ratio_pos; auto.
    - split; auto.
  Qed.

  (** ** losses as sums over the objects *)
  Lemma sumQ_enum3 (data : list (Reco Nt)) (f : nat -> Q) :
    length data = n -> sumQ f (seq 0 n) = sumQ (fun p => f (fst p)) (enum data).
  Proof. intros h. rewrite <- h, <- map_fst_enum, sumQ_map. auto. Qed.

  Lemma rec_ratio_ok med o r : inr n med -> o < n -> rec3 (length med) med o r ->
    (vL (rec_ratio r : Lt) == near_ratio v o med)%Q.
  Proof.
    intros hin ho hr. destruct (rec3_x2 hr) as (a & b & hx).
    destruct (rec_x2_ratio hx) as [-> _].
    destruct hx as (h1 & h2 & _ & _ & _ & h6 & h7 & _). unfold rec_ratio. rewrite h6, h7.
    apply vL_ratio_D; auto using inr_nth.
  Qed.

  Lemma ratio_sum_rtot med data loss :
    inr n med -> data3_ok med data -> ratio_sum data = Some loss -> (vL loss == rtot v n med)%Q.
  Proof.
    intros hin [hl hd] hs. unfold ratio_sum in hs. apply reduce_sum in hs. rewrite hs.
    unfold rtot. rewrite (sumQ_enum3 data) by auto. rewrite sumQ_map.
    rewrite <- (map_snd_enum data) at 1. rewrite sumQ_map. apply sumQ_ext.
    intros [o r] h. apply In_enum in h. simpl.
    assert (ho : o < n) by (rewrite <- hl; apply nth_error_lt with (1 := h)).
    apply rec_ratio_ok; auto.
  Qed.

  Lemma ratio_sum0_rtot med data loss b j :
    inr n med -> data3_ok med data -> ratio_sum0 j data = Some loss ->
    (forall r, nth_error data j = Some r -> near3 r = DP (Some b) nzero) ->
    (vL loss == rtot v n med)%Q.
  Proof.
    intros hin hd hs hj. apply ratio_sum_rtot with (data := data); auto. rewrite <- hs. symmetry.
    apply ratio_sum0_ratio_sum.
    - apply nis_zero_spec; [apply okN_zero|apply vN_zero].
    - intros r hr. rewrite (hj r hr). auto.
  Qed.

  (** ** removal loss *)
  (** decrease of the ratio when medoid [c] is removed, for one record *)
  Definition rem_of3 (c : nat) (r : Reco Nt) : Q :=
    ((if as_usize (di (near3 r)) =? c
      then vN (dd (near3 r)) / vN (dd (seco3 r)) - vN (dd (seco3 r)) / vN (dd (third3 r)) else 0) +
     (if as_usize (di (seco3 r)) =? c
      then vN (dd (near3 r)) / vN (dd (seco3 r)) - vN (dd (near3 r)) / vN (dd (third3 r)) else 0))%Q.

  Definition rl3_ok (data : list (Reco Nt)) (rl : list Lt) : Prop :=
    forall c, (vL (nth c rl lzero) == sumQ (rem_of3 c) data)%Q.

  Lemma update_removal_loss3_ok med data (rl : list Lt) :
    inr n med -> 3 <= length med -> data3_ok med data -> length rl = length med ->
    oks (update_removal_loss3 data rl) (fun rl' => length rl' = length med /\ rl3_ok data rl').
  Proof.
    intros hin hk [hl hd] hrl. unfold update_removal_loss3.
    apply foldM_oks with (I := fun pre (s : list Lt) =>
      length s = length med /\ forall c, (vL (nth c s lzero) == sumQ (rem_of3 c) pre)%Q).
    - split; [rewrite repeat_length; auto|]. intros c. rewrite nth_repeat_zero. apply vL_zero.
    - intros pre r post s e [hs1 hs2].
      assert (hr : nth_error data (length pre) = Some r).
      { rewrite e, nth_error_app2, Nat.sub_diag; auto. }
      assert (ho : length pre < n) by (rewrite <- hl; apply nth_error_lt with (1 := hr)).
      destruct (rec3_x3 hk (hd _ _ hr)) as (a & b & c0 & (h1 & h2 & h3 & h4 & h5 & h6 & h7 & _) & h8 & _ & _ & h9 & _).
      rewrite h4, h5. cbn [as_usize]. rewrite add_at_ok by lia. cbn [bind].
      rewrite add_at_ok by (rewrite length_set_nth; lia). cbn [oks].
      split; [rewrite !length_set_nth; auto|].
      intros c. rewrite vL_add_at by (rewrite length_set_nth; lia). rewrite vL_add_at by lia.
      rewrite hs2, sumQ_app. cbn [sumQ fold_right].
      unfold rem_of3. rewrite h4, h5, h6, h7, h9. cbn [as_usize].
      destruct (a =? c); destruct (b =? c);
        rewrite ?vL_sub, ?vL_ratio_D by auto using inr_nth; unfold v, vals; lra.
  Qed.

  (** ** find_max *)
  Lemma find_max_ok (l : list Lt) : l <> [] ->
    oks (find_max l) (fun p => fst p < length l /\ snd p = nth (fst p) l lzero /\
      (forall c, c < length l -> (vL (nth c l lzero) <= vL (snd p))%Q) /\
      (forall c, c < fst p -> (vL (nth c l lzero) < vL (snd p))%Q)).
  Proof.
    destruct l as [|x xs]; [congruence|]. intros _. unfold find_max. cbn [oks].
    pose (Q := fun t (p : nat * Lt) => fst p < t /\ snd p = nth (fst p) (x :: xs) lzero /\
      (forall c, c < t -> (vL (nth c (x :: xs) lzero) <= vL (snd p))%Q) /\
      (forall c, c < fst p -> (vL (nth c (x :: xs) lzero) < vL (snd p))%Q)).
    assert (G : forall ys s best, 1 <= s ->
      (forall i y, nth_error ys i = Some y -> nth_error (x :: xs) (s + i) = Some y) ->
      Q s best ->
      Q (s + length ys) (fold_left (fun (best : nat * Lt) '(ik, iv) =>
                            if lltb (snd best) iv then (ik, iv) else best)
                         (combine (seq s (length ys)) ys) best)).
    { induction ys as [|y ys IH]; intros s best hs hys hq.
      - simpl. rewrite Nat.add_0_r. auto.
      - cbn [length seq combine fold_left]. rewrite <- Nat.add_succ_comm. apply IH; [lia| |].
        + intros i z hz. specialize (hys (S i) z hz). rewrite <- hys. f_equal. lia.
        + assert (e : nth_error (x :: xs) s = Some y).
          { specialize (hys 0 y eq_refl). rewrite Nat.add_0_r in hys. auto. }
          apply nth_error_nth with (d := lzero) in e.
          destruct hq as (q1 & q2 & q3 & q4).
          destruct (lltb (snd best) y) eqn:el.
          * apply lltb_spec in el. split; [simpl; lia|]. split; [simpl fst; simpl snd; auto|].
            simpl fst. simpl snd. split.
            -- intros c hc. destruct (Nat.eq_dec c s) as [->|]; [rewrite e; lra|].
               specialize (q3 c). assert (hcs : c < s) by lia. specialize (q3 hcs). lra.
            -- intros c hc. specialize (q3 c hc). lra.
          * split; [lia|]. split; [auto|]. split; [|auto].
            intros c hc. destruct (Nat.eq_dec c s) as [->|]; [|apply q3; lia].
            rewrite e. apply Qnot_lt_le. intros hlt. apply lltb_spec in hlt. congruence. }
    apply (G xs 1 (0, x)); auto.
    split; [simpl; lia|]. split; [auto|]. simpl fst. simpl snd. split.
    - intros c hc. assert (c = 0) as -> by lia. simpl. lra.
    - intros c hc. lia.
  Qed.

  (** ** find_best_swap *)
  (** what is added for medoid [c] (including the shared part) for one object *)
  Definition part_of3 (j c : nat) (p : nat * Reco Nt) : Q :=
    let '(o, r) := p in
    let q := v o j in
    let x := vN (dd (near3 r)) in let y := vN (dd (seco3 r)) in let z := vN (dd (third3 r)) in
    let isn := as_usize (di (near3 r)) =? c in let iss := as_usize (di (seco3 r)) =? c in
    (if Qlt_le_dec q x then
       (x / y - q / x) + (if isn then (q / x + y / z) - (x / y + q / y) else 0)
       + (if iss then x / z - x / y else 0)
     else if Qlt_le_dec q y then
       (x / y - x / q) + (if isn then (x / q + y / z) - (x / y + q / y) else 0)
       + (if iss then x / z - x / y else 0)
     else if Qlt_le_dec q z then
       (if isn then y / z - y / q else 0) + (if iss then x / z - x / q else 0)
     else 0)%Q.

  Lemma part_delta3 med data j c :
    inr n med -> 3 <= length med -> j < n -> c < length med -> data3_ok med data ->
    (sumQ (rem_of3 c) data + sumQ (part_of3 j c) (enum data) == rtot v n med - rtot v n (swap med c j))%Q.
  Proof.
    intros hin hk hj hc [hl hd]. unfold rtot. rewrite !(sumQ_enum3 data) by auto.
    rewrite <- (map_snd_enum data) at 1. rewrite sumQ_map.
    rewrite <- sumQ_plus, <- sumQ_minus. apply sumQ_ext.
    intros [o r] h. apply In_enum in h. cbn [fst snd].
    destruct (rec3_x3 hk (hd o r h)) as (a & b & c0 & hx & h8 & h10 & h11 & h9 & m3).
    destruct (rec_x2_ratio hx) as [-> _].
    destruct hx as (h1 & h2 & h3 & h4 & h5 & h6 & h7 & hm).
    rewrite (near_ratio_swap j h1 h2 h8 h3 h10 h11 hm m3 hc). cbv zeta.
    destruct hm as [m1 m2].
    assert (hxy := m1 b h2). assert (hyz := m2 c0 h8 h10).
    unfold rem_of3, part_of3. rewrite h4, h5, h6, h7, h9. cbn [as_usize].
    change (vN (D o (nth a med 0))) with (v o (nth a med 0)).
    change (vN (D o (nth b med 0))) with (v o (nth b med 0)).
    change (vN (D o (nth c0 med 0))) with (v o (nth c0 med 0)).
    rewrite (Nat.eqb_sym c a), (Nat.eqb_sym c b).
    destruct (a =? c) eqn:ea; destruct (b =? c) eqn:eb;
      try (apply Nat.eqb_eq in ea; apply Nat.eqb_eq in eb; congruence);
      destruct (Qlt_le_dec (v o j) (v o (nth a med 0)));
      destruct (Qlt_le_dec (v o j) (v o (nth b med 0)));
      destruct (Qlt_le_dec (v o j) (v o (nth c0 med 0))); try (exfalso; lra); lra.
  Qed.

  Lemma fbs3_fold med data j (l : list (nat * Reco Nt)) (pl0 : list Lt) acc0 :
    inr n med -> 3 <= length med -> data3_ok med data -> length pl0 = length med -> j < n ->
    (forall o r, In (o, r) l -> nth_error data o = Some r) ->
    oks (foldM (fbs3_step M j) l (pl0, acc0)) (fun st => length (fst st) = length med /\
      forall c, (vL (nth c (fst st) lzero) + vL (snd st) ==
                 vL (nth c pl0 lzero) + vL acc0 + sumQ (part_of3 j c) l)%Q).
  Proof.
    intros hin hk hdata hpl hj hl0. pose proof hdata as [hl hd].
    apply foldM_oks with (I := fun pre (st : list Lt * Lt) =>
        length (fst st) = length med /\
        forall c, (vL (nth c (fst st) lzero) + vL (snd st) ==
                   vL (nth c pl0 lzero) + vL acc0 + sumQ (part_of3 j c) pre)%Q).
    - split; [auto|]. intros c. simpl. lra.
    - intros pre [o r] post [pl acc] e [hs1 hs2]. cbn [fst snd] in hs1, hs2.
      assert (hr : nth_error data o = Some r).
      { apply hl0. rewrite e. apply in_or_app. simpl. auto. }
      assert (ho : o < n) by (rewrite <- hl; apply nth_error_lt with (1 := hr)).
      destruct (rec3_x3 hk (hd _ _ hr)) as (a & b & c0 & (h1 & h2 & h3 & h4 & h5 & h6 & h7 & _) & h8 & _ & _ & h9 & _).
      unfold fbs3_step. rewrite (get_ok HM) by auto. cbn [bind]. rewrite h4, h5, h6, h7, h9.
      cbn [as_usize].
      assert (ha : nth a med 0 < n) by auto using inr_nth.
      assert (hb : nth b med 0 < n) by auto using inr_nth.
      assert (hc : nth c0 med 0 < n) by auto using inr_nth.
      rewrite !(nltb_dec HD) by auto.
      change (vals D) with v.
      assert (P : forall c, part_of3 j c (o, r) =
        let q := v o j in let x := v o (nth a med 0) in let y := v o (nth b med 0) in
        let z := v o (nth c0 med 0) in
        (if Qlt_le_dec q x then
           (x / y - q / x) + (if a =? c then (q / x + y / z) - (x / y + q / y) else 0)
           + (if b =? c then x / z - x / y else 0)
         else if Qlt_le_dec q y then
           (x / y - x / q) + (if a =? c then (x / q + y / z) - (x / y + q / y) else 0)
           + (if b =? c then x / z - x / y else 0)
         else if Qlt_le_dec q z then
           (if a =? c then y / z - y / q else 0) + (if b =? c then x / z - x / q else 0)
         else 0)%Q).
      { intros c. unfold part_of3. rewrite h4, h5, h6, h7, h9. reflexivity. }
      assert (A : (vL (ratio (nadd (D o (nth a med 0%nat)) (D o j)) (D o (nth b med 0%nat)) : Lt) ==
                   v o (nth a med 0%nat) / v o (nth b med 0%nat) + v o j / v o (nth b med 0%nat))%Q).
      { rewrite vL_ratio; [|apply okN_add; apply okD with (1 := HD); auto|apply okD with (1 := HD); auto].
        rewrite vN_add by (apply okD with (1 := HD); auto). unfold v, vals, Qdiv. lra. }
      assert (E : forall c, (sumQ (part_of3 j c) (pre ++ [(o, r)]) ==
                             sumQ (part_of3 j c) pre + part_of3 j c (o, r))%Q).
      { intros c. rewrite sumQ_app. cbn [sumQ fold_right]. lra. }
      cbv zeta in P.
      destruct (Qlt_le_dec (v o j) (v o (nth a med 0))) as [d1|d1];
        [|destruct (Qlt_le_dec (v o j) (v o (nth b med 0))) as [d2|d2];
          [|destruct (Qlt_le_dec (v o j) (v o (nth c0 med 0))) as [d3|d3]]].
      4: { cbn [bind oks fst snd]. split; [auto|]. intros c. rewrite E, P. specialize (hs2 c). lra. }
      all: rewrite add_at_ok by lia; cbn [bind]; rewrite add_at_ok by (rewrite length_set_nth; lia);
        cbn [bind oks fst snd]; (split; [rewrite !length_set_nth; auto|]);
        intros c; rewrite vL_add_at by (rewrite length_set_nth; lia); rewrite vL_add_at by lia;
        rewrite E, P; specialize (hs2 c);
        destruct (a =? c); destruct (b =? c);
        rewrite ?vL_add, ?vL_sub, ?A, ?vL_add, ?vL_ratio_D by auto; lra.
  Qed.

  (** the pair chosen *)
  Definition best_slot3 (med : list nat) (j : nat) (p : Lt * nat) : Prop :=
    snd p < length med /\
    (vL (fst p) == rtot v n med - rtot v n (swap med (snd p) j))%Q /\
    (forall c, c < length med -> (rtot v n (swap med (snd p) j) <= rtot v n (swap med c j))%Q) /\
    (forall c, c < snd p -> (rtot v n (swap med (snd p) j) < rtot v n (swap med c j))%Q).

  Lemma find_best_swap3_ok med data (rl : list Lt) j :
    inr n med -> data3_ok med data -> length rl = length med -> 3 <= length med -> j < n ->
    rl3_ok data rl ->
    oks (find_best_swap3 M rl data j) (best_slot3 med j).
  Proof.
    intros hin hdata hrl hk hj hrlok. unfold find_best_swap3.
    eapply oks_bind; [apply fbs3_fold with (1 := hin) (3 := hdata); auto; intros; apply In_enum; auto|].
    intros [pl acc] [hs1 hs2]. cbn [fst snd] in hs1, hs2.
    assert (hval : forall c, c < length med ->
        (vL (nth c pl lzero) + vL acc == rtot v n med - rtot v n (swap med c j))%Q).
    { intros c hc. rewrite hs2. pose proof (hrlok c) as hc'. rewrite hc', vL_zero.
      pose proof (part_delta3 hin hk hj hc hdata). lra. }
    eapply oks_bind; [apply find_max_ok; intros ->; simpl in hs1; lia|].
    intros [b bl] (q1 & q2 & q3 & q4). cbn [fst snd] in *. rewrite hs1 in *. cbn [oks].
    assert (hb := hval b q1). rewrite <- q2 in hb. unfold best_slot3. cbn [fst snd].
    split; [auto|]. split; [rewrite vL_add; auto|]. split.
    - intros c hc. specialize (q3 c hc). specialize (hval c hc). lra.
    - intros c hc. specialize (q4 c hc). assert (hc' : c < length med) by lia.
      specialize (hval c hc'). lra.
  Qed.

  (** ** pammedsil.rs: the change computed for one slot *)
  Lemma near_ratio_self med m : inr n med -> 2 <= length med -> m < n -> In m med ->
    (near_ratio v m med == 0)%Q.
  Proof.
    intros hin hk hm hi. apply nth_In_iff in hi as (c & hc & e).
    pose proof (emb_diag Hemb hm) as hz.
    (* the smallest distance is 0 *)
    unfold near_ratio.
    pose proof (sortQ_perm (map (v m) med)) as hp. pose proof (sortQ_sorted (map (v m) med)) as hs.
    destruct (sortQ (map (v m) med)) as [|p r].
    - apply Permutation.Permutation_length in hp. rewrite map_length in hp. simpl in hp. lia.
    - cbn [nth]. assert (hp0 : (p == 0)%Q).
      { apply Qle_antisym.
        - assert (hi : In (v m m) (p :: r)).
          { apply (Permutation.Permutation_in _ hp). apply in_map. rewrite <- e. apply nth_In. auto. }
          destruct hi as [h|h]; [rewrite h; lra|]. destruct hs as [hs _]. apply hs in h. lra.
        - assert (hi : In p (map (v m) med)).
          { apply (Permutation.Permutation_in _ (Permutation.Permutation_sym hp)). simpl. auto. }
          apply in_map_iff in hi as (x & <- & hx). apply (emb_pos Hemb); auto. }
      rewrite hp0. unfold Qdiv. lra.
  Qed.

  (** change of the ratio of one object other than [j] *)
  Definition pms_term (med : list nat) (j m : nat) (o : nat) : Q :=
    if o =? j then 0%Q else (near_ratio v o med - near_ratio v o (swap med m j))%Q.

  Lemma pms_step_ok med data j m (acc : Lt) o r :
    inr n med -> data3_ok med data -> 2 <= length med -> m < length med -> j < n ->
    nth_error data o = Some r ->
    oks ((if length med =? 2 then pms2_step M else pms_step M) j m acc (o, r))
        (fun x => (vL x == vL acc + pms_term med j m o)%Q).
  Proof.
    intros hin [hl hd] hk hm hj hr.
    assert (ho : o < n) by (rewrite <- hl; apply nth_error_lt with (1 := hr)).
    unfold pms_term. destruct (length med =? 2) eqn:ek.
    - apply Nat.eqb_eq in ek. unfold pms2_step. destruct (o =? j); [cbn [oks]; lra|].
      rewrite (get_ok HM) by auto. cbn [bind].
      destruct (rec3_x2 (hd _ _ hr)) as (a & b & hx).
      destruct (rec_x2_ratio hx) as [e1 _].
      destruct hx as (h1 & h2 & h3 & h4 & h5 & h6 & h7 & m1 & m2).
      pose proof (@near_ratio_swap2 v o med a b m j ek ltac:(lia) ltac:(lia) h3 ltac:(lia)) as e2.
      cbv zeta in e2. revert e2.
      rewrite h4, h5, h6, h7. cbn [as_usize].
      assert (ha : nth a med 0 < n) by auto using inr_nth.
      assert (hb : nth b med 0 < n) by auto using inr_nth.
      rewrite !(nltb_dec HD) by auto. change (vals D) with v. rewrite (Nat.eqb_sym m a).
      destruct (a =? m) eqn:ea.
      + destruct (Qlt_le_dec (v o j) (v o (nth b med 0))); intros e2; cbn [oks];
          rewrite vL_add, vL_sub, !vL_ratio_D by auto; lra.
      + apply Nat.eqb_neq in ea. replace (b =? m) with true by (symmetry; apply Nat.eqb_eq; lia).
        destruct (Qlt_le_dec (v o j) (v o (nth a med 0))); intros e2; cbn [oks];
          rewrite vL_add, vL_sub, !vL_ratio_D by auto; lra.
    - apply Nat.eqb_neq in ek. unfold pms_step. destruct (o =? j); [cbn [oks]; lra|].
      rewrite (get_ok HM) by auto. cbn [bind].
      assert (hk3 : 3 <= length med) by lia.
      destruct (rec3_x3 hk3 (hd o r hr)) as (a & b & c0 & hx & h8 & h10 & h11 & h9 & m3).
      destruct (rec_x2_ratio hx) as [e1 _].
      destruct hx as (h1 & h2 & h3 & h4 & h5 & h6 & h7 & hmm).
      pose proof (near_ratio_swap j h1 h2 h8 h3 h10 h11 hmm m3 hm) as e2. cbv zeta in e2. revert e2.
      rewrite h4, h5, h6, h7, h9. cbn [as_usize].
      assert (ha : nth a med 0 < n) by auto using inr_nth.
      assert (hb : nth b med 0 < n) by auto using inr_nth.
      assert (hc : nth c0 med 0 < n) by auto using inr_nth.
      rewrite !(nltb_dec HD) by auto. change (vals D) with v.
      rewrite (Nat.eqb_sym m a), (Nat.eqb_sym m b).
      destruct (a =? m); [|destruct (b =? m)];
        destruct (Qlt_le_dec (v o j) (v o (nth a med 0)));
        destruct (Qlt_le_dec (v o j) (v o (nth b med 0)));
        destruct (Qlt_le_dec (v o j) (v o (nth c0 med 0))); intros e2; cbn [oks];
        rewrite ?vL_add, ?vL_sub, ?vL_ratio_D by auto; lra.
  Qed.

  Lemma pms_change_ok med data j m (acc : Lt) :
    inr n med -> data3_ok med data -> 2 <= length med -> m < length med -> j < n ->
    (vL acc == near_ratio v j med)%Q ->
    oks (foldM ((if length med =? 2 then pms2_step M else pms_step M) j m) (enum data) acc)
        (fun x => (vL x == rtot v n med - rtot v n (swap med m j))%Q).
  Proof.
    intros hin hdata hk hm hj hacc. pose proof hdata as [hl hd].
    eapply oks_mono.
    - apply foldM_oks with (I := fun pre (x : Lt) =>
        (vL x == vL acc + sumQ (fun p => pms_term med j m (fst p)) pre)%Q).
      + simpl. lra.
      + intros pre [o r] post x e hx.
        assert (hro : nth_error data o = Some r).
        { apply In_enum. rewrite e. apply in_or_app. simpl. auto. }
        eapply oks_mono; [eapply pms_step_ok; eauto|].
        intros y hy. cbv beta in hy. rewrite hy, hx, sumQ_app. cbn [sumQ fold_right fst]. lra.
    - intros x hx. rewrite hx, hacc, <- (sumQ_enum3 data) by auto.
      unfold rtot. rewrite <- sumQ_minus.
      assert (hz : (near_ratio v j (swap med m j) == 0)%Q).
      { rewrite swap_set_nth by auto. apply near_ratio_self; auto.
        - apply inr_set_nth; auto.
        - rewrite length_set_nth. auto.
        - rewrite <- (nth_set_nth_eq med j 0 hm) at 1. apply nth_In. rewrite length_set_nth. auto. }
      rewrite (sumQ_ext (fun x0 => near_ratio v x0 med - near_ratio v x0 (swap med m j))%Q
                 (fun o => pms_term med j m o + (if o =? j then near_ratio v j med else 0))%Q).
      + rewrite sumQ_plus, sumQ_single by auto. lra.
      + intros o ho. unfold pms_term. destruct (o =? j) eqn:e; [|lra].
        apply Nat.eqb_eq in e. subst o. lra.
  Qed.
End Exact.
