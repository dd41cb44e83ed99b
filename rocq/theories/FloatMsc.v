(** FloatMsc.v -- binary64: how far the evaluated changes of the medoid silhouette are from the exact ones *)
From Coq Require Import ZArith QArith Qpower Lqa Lia.
From Coq.Floats Require Import SpecFloat.
From Verif Require Import Base Num M_Mat M_Util M_Fasterpam M_Silhouette M_Msc M_Pammedsil Inst Hoare Spec SpecFacts Laws
  FloatFacts FloatExact FloatRound PamShape PamExact PamFacts MscShape MscExact MscFacts TermMsc FloatSil FloatLoss FloatMain FloatFmt FloatSwap.
Set Implicit Arguments.
Open Scope Q_scope.

(** how much the type of the dissimilarities may lose in a sum: [2^-53] for [f64], [2^-24] for [f32] *)
Class SumErr := { serr : Q; serr_lo : 2 ^ (-53) <= serr; serr_hi : serr <= 2 ^ (-24) }.

(** ** numbers up to [8 n] *)
Section Acc.
  Context {U : SumErr}.
  Variable n : nat.
  Hypothesis Hn : (1 <= n)%nat.
  Hypothesis Hn32 : (N.of_nat n <= 4294967295)%N.

  Definition dl : Q := 2 ^ (-53) * (8 * cnt n) + 2 * (serr - 2 ^ (-53)).

  Lemma dl_ge : 2 ^ (-53) * (8 * cnt n) <= dl.
  Proof. unfold dl. pose proof serr_lo. lra. Qed.
  Lemma dl_pos : 0 <= dl.
  Proof.
    apply Qle_trans with (2 := dl_ge). pose proof (cnt_pos n). assert (0 < 2 ^ (-53)) by reflexivity.
    apply Qmult_le_0_compat; lra.
  Qed.
  Lemma dl_unit : 6 * 2 ^ (-53) + 2 * serr <= dl.
  Proof.
    unfold dl. pose proof (n1 Hn). assert (0 < 2 ^ (-53)) by reflexivity.
    assert (2 ^ (-53) * 8 <= 2 ^ (-53) * (8 * cnt n)); [|lra].
    rewrite !(Qmult_comm (2 ^ (-53))). apply Qmult_le_compat_r; lra.
  Qed.

  (** [x] is [q] up to the errors of [t] operations *)
  Definition ap (t : nat) (q : Q) (x : f64) : Prop := f64_finite x /\ close (cnt t * dl) q x.

  Lemma ap_mono t t' q q' x : (t <= t')%nat -> q == q' -> ap t q x -> ap t' q' x.
  Proof.
    intros ht hq [h1 h2]. split; [auto|]. eapply close_ext; [reflexivity|exact hq|].
    eapply close_le; [|exact h2]. pose proof dl_pos. apply Qmult_le_compat_r; [apply cnt_le|]; auto.
  Qed.

  Lemma ap_zero t : ap t 0 lzero.
  Proof.
    apply ap_mono with 0%nat 0; [apply Nat.le_0_l|reflexivity|]. split; [exact I|]. rewrite <- zero_val at 1.
    change (cnt 0) with 0. unfold close. lra.
  Qed.

  Lemma few t : (t <= 16 * n)%nat -> cnt t * dl <= cnt n.
  Proof.
    intros ht. unfold dl. pose proof (cnt_n32 n Hn32). pose proof (cnt_pos n).
    assert (h1 : cnt t <= 16 * 2 ^ 32).
    { apply Qle_trans with (cnt (16 * n)); [apply cnt_le; auto|]. rewrite cnt_mul. change (cnt 16) with 16. lra. }
    assert (h2 : cnt t * (8 * 2 ^ (-53)) <= (1 # 2)).
    { apply Qle_trans with (16 * 2 ^ 32 * (8 * 2 ^ (-53))).
      - apply Qmult_le_compat_r; [auto|]. apply Qlt_le_weak. reflexivity.
      - vm_compute. discriminate. }
    assert (h3 : cnt t * (8 * 2 ^ (-53)) * cnt n <= (1 # 2) * cnt n) by (apply Qmult_le_compat_r; auto).
    assert (h4 : cnt t * (2 * (serr - 2 ^ (-53))) <= cnt (16 * n) * (2 * (serr - 2 ^ (-53)))).
    { apply Qmult_le_compat_r; [apply cnt_le; auto|]. pose proof serr_lo. lra. }
    rewrite cnt_mul in h4. change (cnt 16) with 16 in h4.
    assert (h5 : cnt n * (32 * (serr - 2 ^ (-53))) <= cnt n * (1 # 2)).
    { rewrite !(Qmult_comm (cnt n)). apply Qmult_le_compat_r; [|auto]. pose proof serr_hi.
      assert (2 ^ (-24) <= (1 # 64)) by (vm_compute; discriminate). assert (0 < 2 ^ (-53)) by reflexivity. lra. }
    lra.
  Qed.

  Lemma big8 : 8 * cnt n <= 2 ^ 1023.
  Proof.
    pose proof (cnt_n32 n Hn32). apply Qle_trans with (8 * 2 ^ 32); [lra|]. vm_compute. discriminate.
  Qed.

  Definition six (q : Q) : Prop := - (6 * cnt n) <= q /\ q <= 6 * cnt n.

  Lemma ap_add t1 t2 q1 q2 x1 x2 : (t1 + t2 <= 16 * n)%nat -> six (q1 + q2) ->
    ap t1 q1 x1 -> ap t2 q2 x2 -> ap (S (t1 + t2)) (q1 + q2) (ladd x1 x2).
  Proof.
    intros ht [h1 h2] [f1 [c1 c1']] [f2 [c2 c2']]. pose proof (few ht) as he. rewrite cnt_add in he.
    destruct (@add_near x1 x2 (8 * cnt n) f1 f2) as [g1 [g2 g3]]; [lra|lra|apply big8|].
    split; [exact g1|]. pose proof dl_ge. cbn [ladd NumL_f64]. unfold close. rewrite cnt_S, cnt_add. lra.
  Qed.

  Lemma ap_sub t1 t2 q1 q2 x1 x2 : (t1 + t2 <= 16 * n)%nat -> six (q1 - q2) ->
    ap t1 q1 x1 -> ap t2 q2 x2 -> ap (S (t1 + t2)) (q1 - q2) (lsub x1 x2).
  Proof.
    intros ht [h1 h2] [f1 [c1 c1']] [f2 [c2 c2']]. pose proof (few ht) as he. rewrite cnt_add in he.
    destruct (@sub_near x1 x2 (8 * cnt n) f1 f2) as [g1 [g2 g3]]; [lra|lra|apply big8|].
    split; [exact g1|]. pose proof dl_ge. cbn [lsub NumL_f64]. unfold close. rewrite cnt_S, cnt_add. lra.
  Qed.

  (** adding at two different indices *)
  Lemma ap_add_at2 t tx ty (l : list f64) (q : nat -> Q) i i' x y qx qy : (i < length l)%nat -> (i' < length l)%nat -> i <> i' ->
    (tx <= 5)%nat -> (ty <= 5)%nat -> (t + 5 <= 16 * n)%nat -> six (q i + qx) -> six (q i' + qy) ->
    (forall c, (c < length l)%nat -> ap t (q c) (nth c l lzero)) -> ap tx qx x -> ap ty qy y ->
    oks (l1 <- add_at l i x ;; add_at l1 i' y) (fun l2 => length l2 = length l /\
      forall c, (c < length l)%nat ->
        ap (S (t + Nat.max tx ty)) (q c + ((if (i =? c)%nat then qx else 0) + (if (i' =? c)%nat then qy else 0))) (nth c l2 lzero)).
  Proof.
    intros hi hi' hne hx hy ht h1 h2 hq hX hY. rewrite add_at_ok by auto. cbn [bind].
    rewrite add_at_ok by (rewrite length_set_nth; auto). cbn [oks]. rewrite !length_set_nth. split; [auto|].
    intros c hc. replace (nth i' (set_nth l i (ladd (nth i l lzero) x)) lzero) with (nth i' l lzero) by (symmetry; apply nth_set_nth_neq; auto).
    destruct (Nat.eqb_spec i c) as [e1|e1]; destruct (Nat.eqb_spec i' c) as [e2|e2]; try congruence.
    - subst c. rewrite nth_set_nth_neq by auto. rewrite nth_set_nth_eq by auto.
      eapply ap_mono; [| |apply ap_add with (t1 := t) (t2 := tx) (q1 := q i) (q2 := qx); auto]; [lia|lra|lia].
    - subst c. rewrite nth_set_nth_eq by (rewrite length_set_nth; auto).
      eapply ap_mono; [| |apply ap_add with (t1 := t) (t2 := ty) (q1 := q i') (q2 := qy); auto]; [lia|lra|lia].
    - rewrite !nth_set_nth_neq by auto. eapply ap_mono; [| |apply hq; auto]; [lia|lra].
  Qed.

  (** the error of an evaluated change *)
  Definition err3 : Q := cnt n * cnt n * 2 ^ (-46) + 32 * (cnt n * (serr - 2 ^ (-53))).
  Lemma err3_pos : 0 <= err3.
  Proof.
    unfold err3. pose proof (cnt_pos n). assert (0 < 2 ^ (-46)) by reflexivity. pose proof serr_lo.
    assert (0 <= cnt n * (serr - 2 ^ (-53))) by (apply Qmult_le_0_compat; lra).
    assert (0 <= cnt n * cnt n * 2 ^ (-46)) by (apply Qmult_le_0_compat; [apply Qmult_le_0_compat|]; lra). lra.
  Qed.
  Lemma err3_few t : (t <= 16 * n)%nat -> cnt t * dl <= err3.
  Proof.
    intros ht. apply Qle_trans with (cnt (16 * n) * dl).
    - apply Qmult_le_compat_r; [apply cnt_le; auto|apply dl_pos].
    - rewrite cnt_mul. unfold err3, dl. apply Qle_lteq. right. change (cnt 16) with 16.
      assert (e : 2 ^ (-46) == 128 * 2 ^ (-53)) by reflexivity. rewrite e. ring.
  Qed.
  Lemma ap_close t q x : (t <= 16 * n)%nat -> ap t q x -> f64_finite x /\ close err3 q x.
  Proof. intros ht [h1 h2]. split; [auto|]. eapply close_le; [|exact h2]. apply err3_few. auto. Qed.

  Lemma sum2_bound A (f : A -> Q) (l : list A) : (length l <= n)%nat -> (forall x, In x l -> - (2) <= f x /\ f x <= 2) ->
    - (2 * cnt n) <= sumQ f l /\ sumQ f l <= 2 * cnt n.
  Proof.
    intros hl h. apply sumQ_bound in h. pose proof (cnt_le hl). lra.
  Qed.
End Acc.

Lemma quo01 a b : 0 <= a -> a <= b -> 0 <= a / b /\ a / b <= 1.
Proof.
  intros h1 h2. destruct (Qlt_le_dec 0 b) as [hb|hb].
  - split; [apply Qle_shift_div_l; lra|apply Qle_shift_div_r; lra].
  - assert (hz : b == 0) by lra. assert (e : a / b == 0) by (rewrite hz; unfold Qdiv; change (/ 0) with 0; ring). lra.
Qed.

(** ** the first maximum of finite numbers *)
Lemma find_max_f64 (l : list f64) : l <> [] -> (forall x, In x l -> f64_finite x) ->
  oks (find_max l) (fun p => (fst p < length l)%nat /\ snd p = nth (fst p) l lzero /\
    (forall c, (c < length l)%nat -> f64_val (nth c l lzero) <= f64_val (snd p))).
Proof.
  destruct l as [|x xs]; [congruence|]. intros _ hf. unfold find_max. cbn [oks].
  pose (Q := fun t (p : nat * f64) => (fst p < t)%nat /\ snd p = nth (fst p) (x :: xs) lzero /\ f64_finite (snd p) /\
    (forall c, (c < t)%nat -> f64_val (nth c (x :: xs) lzero) <= f64_val (snd p))).
  assert (G : forall ys s best, (1 <= s)%nat ->
    (forall i y, nth_error ys i = Some y -> nth_error (x :: xs) (s + i) = Some y) ->
    Q s best ->
    Q (s + length ys)%nat (fold_left (fun (best : nat * f64) '(ik, iv) =>
                          if lltb (snd best) iv then (ik, iv) else best)
                       (combine (seq s (length ys)) ys) best)).
  { induction ys as [|y ys IH]; intros s best hs hys hq.
    - simpl. rewrite Nat.add_0_r. auto.
    - cbn [length seq combine fold_left]. rewrite <- Nat.add_succ_comm. apply IH; [lia| |].
      + intros i z hz. specialize (hys (S i) z hz). rewrite <- hys. f_equal. lia.
      + assert (e : nth_error (x :: xs) s = Some y).
        { specialize (hys 0%nat y eq_refl). rewrite Nat.add_0_r in hys. auto. }
        assert (hy : f64_finite y) by (apply hf; eapply nth_error_In; eauto).
        apply nth_error_nth with (d := lzero) in e.
        destruct hq as (q1 & q2 & q3 & q4).
        destruct (lltb (snd best) y) eqn:el.
        * apply f64_lltb in el; auto. split; [simpl; lia|]. split; [simpl fst; simpl snd; auto|].
          simpl fst. simpl snd. split; [auto|].
          intros c hc. destruct (Nat.eq_dec c s) as [->|]; [rewrite e; lra|].
          specialize (q4 c). assert (hcs : (c < s)%nat) by lia. specialize (q4 hcs). lra.
        * split; [lia|]. split; [auto|]. split; [auto|].
          intros c hc. destruct (Nat.eq_dec c s) as [->|]; [|apply q4; lia].
          rewrite e. apply f64_lltb_false; auto. }
  assert (h0 : Q 1%nat (0%nat, x)).
  { split; [simpl; lia|]. split; [auto|]. simpl fst. simpl snd. split; [apply hf; simpl; auto|].
    intros c hc. assert (c = 0%nat) as -> by lia. simpl. lra. }
  pose proof (G xs 1%nat (0%nat, x) (le_n 1) ltac:(auto) h0) as (g1 & g2 & _ & g4). auto.
Qed.

(** the sum of two dissimilarities of an object, taken in the type of the dissimilarities, is rounded correctly *)
Definition adds_within {Nt} `{OrdLaws Nt} `{FromN Nt f64} (u : Q) (n : nat) (D : nat -> nat -> Nt) : Prop :=
  forall o x y, (o < n)%nat -> (x < n)%nat -> (y < n)%nat ->
    okN (nadd (D o x) (D o y)) /\ f64_finite (lfrom (nadd (D o x) (D o y))) /\
    f64_val (lfrom (nadd (D o x) (D o y))) == vN (nadd (D o x) (D o y)) /\
    close (u * (vals D o x + vals D o y)) (vals D o x + vals D o y) (lfrom (nadd (D o x) (D o y))).
Definition adds_near {Nt} `{OrdLaws Nt} `{FromN Nt f64} (n : nat) (D : nat -> nat -> Nt) : Prop := adds_within (2 ^ (-53)) n D.
Definition err64 : SumErr := {| serr := 2 ^ (-53); serr_lo := Qle_refl _; serr_hi := ltac:(vm_compute; discriminate) |}.
Definition err32 : SumErr := {| serr := 2 ^ (-24); serr_lo := ltac:(vm_compute; discriminate); serr_hi := Qle_refl _ |}.

Section Msc.
  Context {U : SumErr} {Nt : Type} `{HO : OrdLaws Nt} `{HFN : FromN Nt f64}.
  Variable M : Mat Nt.
  Variable n : nat.
  Variable D : nat -> nat -> Nt.
  Hypothesis HD : diss_matrix M n D.
  Hypothesis HE : exact_from n D.
  Hypothesis Hn : (1 <= n)%nat.
  Hypothesis Hn32 : (N.of_nat n <= 4294967295)%N.
  Notation v := (vals D).
  Let HM : is_matrix M n D := proj1 HD.
  Let Hemb : Emb n D v := proj1 (emb_vals HD).
  Let Hdg : Dg n D := proj2 (emb_vals HD).

  Lemma vpos x y : (x < n)%nat -> (y < n)%nat -> 0 <= v x y.
  Proof. intros hx hy. apply (emb_pos Hemb); auto. Qed.

  Lemma zero_entry o x : (o < n)%nat -> (x < n)%nat -> nis_zero (D o x) = true -> v o x == 0.
  Proof. intros ho hx h. apply nis_zero_spec in h; [exact h|]. apply (okD HD); auto. Qed.
  Lemma pos_entry o x : (o < n)%nat -> (x < n)%nat -> nis_zero (D o x) = false -> 0 < v o x.
  Proof.
    intros ho hx h. pose proof (vpos ho hx). destruct (Qlt_le_dec 0 (v o x)) as [|hle]; [auto|].
    exfalso. assert (e : nis_zero (D o x) = true); [|congruence]. apply nis_zero_spec; [apply (okD HD); auto|]. unfold vals in *. lra.
  Qed.

  (** ** ratios *)
  Lemma ratio_in o x y : (o < n)%nat -> (x < n)%nat -> (y < n)%nat -> v o x <= v o y ->
    within 0 1 (ratio (D o x) (D o y)) /\ close (2 ^ (-53)) (v o x / v o y) (ratio (D o x) (D o y)).
  Proof.
    intros ho hx hy hle. unfold ratio.
    assert (Z : v o x / v o y == 0 -> within 0 1 (lzero : f64) /\ close (2 ^ (-53)) (v o x / v o y) lzero).
    { intros e. assert (0 < 2 ^ (-53)) by reflexivity. unfold within, close. rewrite zero_val. split; [split; [exact I|]|]; lra. }
    destruct (nis_zero (D o x)) eqn:e1; cbn [orb].
    { apply Z. rewrite (zero_entry ho hx e1). unfold Qdiv. ring. }
    destruct (nis_zero (D o y)) eqn:e2.
    { apply Z. rewrite (zero_entry ho hy e2). unfold Qdiv. change (/ 0) with 0. ring. }
    destruct (HE ho hx) as [a1 a2]. destruct (HE ho hy) as [b1 b2].
    pose proof (pos_entry ho hx e1). pose proof (pos_entry ho hy e2).
    destruct (@ratio_within (lfrom (D o x)) (lfrom (D o y)) a1 b1) as [r1 r2]; try lra.
    split; [exact r1|]. eapply close_ext; [reflexivity| |exact r2]. rewrite a2, b2. reflexivity.
  Qed.

  Lemma ratio_ap o x y : (o < n)%nat -> (x < n)%nat -> (y < n)%nat -> v o x <= v o y ->
    ap n 1 (v o x / v o y) (ratio (D o x) (D o y)) /\ 0 <= v o x / v o y /\ v o x / v o y <= 1.
  Proof.
    intros ho hx hy hle. destruct (ratio_in ho hx hy hle) as [[h1 _] h2]. split; [|apply quo01; auto; apply vpos; auto].
    split; [exact h1|]. eapply close_le; [|exact h2]. pose proof (dl_unit Hn). pose proof serr_lo. change (cnt 1) with 1.
    assert (0 < 2 ^ (-53)) by reflexivity. lra.
  Qed.

  Hypothesis HA : adds_within serr n D.

  Lemma ratio_sum_ap o x q y : (o < n)%nat -> (x < n)%nat -> (q < n)%nat -> (y < n)%nat -> v o x <= v o y -> v o q <= v o y ->
    ap n 1 (v o x / v o y + v o q / v o y) (ratio (nadd (D o x) (D o q)) (D o y)).
  Proof.
    intros ho hx hq hy h1 h2. destruct (HA ho hx hq) as (s1 & s2 & s3 & s4 & s5). unfold ratio.
    pose proof (vpos ho hx) as px. pose proof (vpos ho hq) as pq. assert (pp : 0 < 2 ^ (-53)) by reflexivity.
    pose proof serr_lo as pl. assert (p1 : serr <= (1 # 2)).
    { apply Qle_trans with (1 := serr_hi). vm_compute; discriminate. }
    set (s := nadd (D o x) (D o q)) in *. set (w := v o x + v o q) in *.
    assert (Z : v o x / v o y + v o q / v o y == 0 -> ap n 1 (v o x / v o y + v o q / v o y) (lzero : f64)).
    { intros e. eapply ap_mono; [| |apply (ap_zero n 1)]; [lia|]. rewrite e. reflexivity. }
    destruct (nis_zero s) eqn:e1; cbn [orb].
    { apply Z. apply nis_zero_spec in e1; [|auto]. rewrite e1 in s3. rewrite s3 in s4, s5.
      assert (hw0 : 0 <= w) by (unfold w; lra).
      assert (hw : w <= 0).
      { assert (serr * w <= (1 # 2) * w) by (apply Qmult_le_compat_r; auto). lra. }
      assert (v o x == 0) by (unfold w in hw; lra). assert (v o q == 0) by (unfold w in hw; lra).
      rewrite H0, H1. unfold Qdiv. ring. }
    destruct (nis_zero (D o y)) eqn:e2.
    { apply Z. rewrite (zero_entry ho hy e2). unfold Qdiv. change (/ 0) with 0. ring. }
    pose proof (pos_entry ho hy e2) as py. destruct (HE ho hy) as [b1 b2].
    set (a := lfrom s) in *. set (b := lfrom (D o y)) in *. cbn [ldiv NumL_f64].
    assert (ib : 0 < / v o y) by (apply Qinv_lt_0_compat; auto).
    assert (eq : v o x / v o y + v o q / v o y == w / v o y) by (unfold w, Qdiv; ring).
    assert (ea : f64_val a / f64_val b == f64_val a / v o y) by (rewrite b2; reflexivity).
    assert (w2 : 0 <= w / v o y /\ w / v o y <= 2).
    { pose proof (quo01 px h1). pose proof (quo01 pq h2). lra. }
    (* the numerator *)
    assert (da : f64_val a / v o y - w / v o y <= serr * 2 /\ - (serr * 2) <= f64_val a / v o y - w / v o y).
    { assert (E : f64_val a / v o y - w / v o y == (f64_val a - w) * / v o y) by (unfold Qdiv; ring).
      assert (u1 : (f64_val a - w) * / v o y <= (serr * w) * / v o y) by (apply Qmult_le_compat_r; lra).
      assert (u2 : (- (serr * w)) * / v o y <= (f64_val a - w) * / v o y) by (apply Qmult_le_compat_r; lra).
      assert (E2 : (serr * w) * / v o y == (w / v o y) * serr) by (unfold Qdiv; ring).
      assert (u3 : (w / v o y) * serr <= 2 * serr) by (apply Qmult_le_compat_r; lra).
      lra. }
    assert (hB : 3 <= 2 ^ 1023) by (apply Qlt_le_weak; reflexivity).
    assert (hr : rounds (f64_val a / f64_val b) (SFdiv fprec femax a b)) by (apply div_rounds; auto; lra).
    assert (ph : serr <= (1 # 4)) by (apply Qle_trans with (1 := serr_hi); vm_compute; discriminate).
    assert (h := rounds_abs (B := 3) hr ltac:(lra) ltac:(lra) ltac:(apply Qlt_le_weak; reflexivity)).
    split; [apply hr|]. pose proof (dl_unit Hn). pose proof serr_lo. change (cnt 1) with 1. unfold close. lra.
  Qed.

  (** ** the records *)
  Lemma rec3_order med o r a b c : inr n med -> (o < n)%nat -> rec_x3 D med o r a b c ->
    v o (nth a med 0%nat) <= v o (nth b med 0%nat) /\ v o (nth b med 0%nat) <= v o (nth c med 0%nat).
  Proof.
    intros hin ho ((h1 & h2 & h3 & _ & _ & _ & _ & [m1 m2]) & c1 & c2 & c3 & _ & m3).
    split; [apply m1; auto|]. apply m2; auto.
  Qed.

  Lemma six_small q : - (6) <= q -> q <= 6 -> six n q.
  Proof. intros h1 h2. pose proof (n1 Hn). unfold six. split; lra. Qed.

  Definition rl_near3 (data : list (Reco Nt)) (rl : list f64) : Prop :=
    forall c, (c < length rl)%nat -> ap n (4 * n) (sumQ (rem_of3 c) data) (nth c rl lzero).

  Lemma rem_bound3 med data c : inr n med -> (3 <= length med)%nat -> data3_ok n D True med data ->
    forall r, In r data -> - (2) <= rem_of3 c r /\ rem_of3 c r <= 2.
  Proof.
    intros hin hk [hl hd] r hr. apply In_nth_error in hr as (o & hr).
    assert (ho : (o < n)%nat) by (rewrite <- hl; apply nth_error_lt with (1 := hr)).
    destruct (rec3_x3 HD hk (hd _ _ hr)) as (a & b & c0 & hx). destruct (rec3_order hin ho hx) as [o1 o2].
    destruct hx as ((h1 & h2 & h3 & h4 & h5 & h6 & h7 & _) & h8 & _ & _ & h9 & _).
    assert (ha : (nth a med 0 < n)%nat) by auto using inr_nth. pose proof (vpos ho ha) as p.
    unfold rem_of3. rewrite h6, h7, h9.
    change (vN (D o (nth a med 0%nat))) with (v o (nth a med 0%nat)).
    change (vN (D o (nth b med 0%nat))) with (v o (nth b med 0%nat)).
    change (vN (D o (nth c0 med 0%nat))) with (v o (nth c0 med 0%nat)).
    set (x := v o (nth a med 0%nat)) in *. set (y := v o (nth b med 0%nat)) in *. set (z := v o (nth c0 med 0%nat)) in *.
    pose proof (quo01 p o1). pose proof (@quo01 y z ltac:(lra) o2). pose proof (@quo01 x z p ltac:(lra)).
    destruct (_ =? _)%nat; destruct (_ =? _)%nat; lra.
  Qed.

  Lemma update_removal_loss3_near med data (rl : list f64) :
    inr n med -> (3 <= length med)%nat -> data3_ok n D True med data -> length rl = length med ->
    oks (update_removal_loss3 data rl) (fun rl' => length rl' = length med /\ rl_near3 data rl').
  Proof.
    intros hin hk hdata hrl. pose proof hdata as [hl hd]. unfold update_removal_loss3.
    eapply oks_mono.
    - apply foldM_oks with (I := fun pre (s : list f64) => length s = length med /\
        forall c, (c < length s)%nat -> ap n (4 * length pre) (sumQ (rem_of3 c) pre) (nth c s lzero)).
      + split; [rewrite repeat_length; auto|]. intros c hc. rewrite nth_repeat_zero. apply ap_zero.
      + intros pre r post s e [hs1 hs2].
        assert (hr : nth_error data (length pre) = Some r).
        { rewrite e, nth_error_app2, Nat.sub_diag; auto. }
        assert (ho : (length pre < n)%nat) by (rewrite <- hl; apply nth_error_lt with (1 := hr)). set (o := length pre) in *.
        destruct (rec3_x3 HD hk (hd _ _ hr)) as (a & b & c0 & hx). destruct (rec3_order hin ho hx) as [o1 o2].
        destruct hx as ((h1 & h2 & h3 & h4 & h5 & h6 & h7 & _) & h8 & _ & _ & h9 & _).
        assert (ha : (nth a med 0 < n)%nat) by auto using inr_nth.
        assert (hb : (nth b med 0 < n)%nat) by auto using inr_nth.
        assert (hc : (nth c0 med 0 < n)%nat) by auto using inr_nth.
        assert (hbd : forall c, - (2 * cnt n) <= sumQ (rem_of3 c) (pre ++ [r]) /\ sumQ (rem_of3 c) (pre ++ [r]) <= 2 * cnt n).
        { intros c. apply sum2_bound; [rewrite app_length; cbn [length]; lia|].
          intros x hx'. eapply rem_bound3; eauto. rewrite e. apply in_or_app. apply in_app_or in hx' as [|[<-|[]]]; simpl; auto. }
        assert (hsp : forall c, sumQ (rem_of3 c) (pre ++ [r]) == sumQ (rem_of3 c) pre + rem_of3 c r).
        { intros c. rewrite sumQ_app. cbn [sumQ fold_right]. lra. }
        set (qx := v o (nth a med 0%nat) / v o (nth b med 0%nat) - v o (nth b med 0%nat) / v o (nth c0 med 0%nat)).
        set (qy := v o (nth a med 0%nat) / v o (nth b med 0%nat) - v o (nth a med 0%nat) / v o (nth c0 med 0%nat)).
        assert (hR : forall c, rem_of3 c r == (if (a =? c)%nat then qx else 0) + (if (b =? c)%nat then qy else 0)).
        { intros c. unfold rem_of3. rewrite h4, h5, h6, h7, h9. reflexivity. }
        assert (Sa : rem_of3 a r == qx).
        { rewrite hR, Nat.eqb_refl. replace (b =? a)%nat with false by (symmetry; apply Nat.eqb_neq; auto). lra. }
        assert (Sb : rem_of3 b r == qy).
        { rewrite hR, Nat.eqb_refl. replace (a =? b)%nat with false by (symmetry; apply Nat.eqb_neq; auto). lra. }
        rewrite h4, h5, h6, h7, h9. cbn [as_usize].
        destruct (ratio_ap ho ha hb o1) as (r1 & r1' & r1''). destruct (ratio_ap ho hb hc o2) as (r2 & r2' & r2'').
        destruct (@ratio_ap o (nth a med 0%nat) (nth c0 med 0%nat) ho ha hc ltac:(lra)) as (r3 & r3' & r3'').
        pose proof (cnt_pos n). eapply oks_mono.
        * apply ap_add_at2 with (n := n) (t := (4 * o)%nat) (tx := 3%nat) (ty := 3%nat) (q := fun c => sumQ (rem_of3 c) pre) (qx := qx) (qy := qy);
            try lia; auto.
          -- cbv beta. specialize (hbd a). specialize (hsp a). unfold six. lra.
          -- cbv beta. specialize (hbd b). specialize (hsp b). unfold six. lra.
          -- unfold qx. apply ap_sub with (t1 := 1%nat) (t2 := 1%nat); auto; [lia|apply six_small; lra].
          -- unfold qy. apply ap_sub with (t1 := 1%nat) (t2 := 1%nat); auto; [lia|apply six_small; lra].
        * intros l2 [q1 q2]. split; [congruence|]. intros c hc'. rewrite app_length. cbn [length]. fold o.
          eapply ap_mono; [| |apply q2; lia]; [lia|]. cbv beta. rewrite hsp, hR. reflexivity.
    - intros s [h1 h2]. split; [auto|]. intros c hc. eapply ap_mono; [| |apply h2; auto]; [lia|reflexivity].
  Qed.

  (** ** find_best_swap: the shared part and the parts of the medoids *)
  Definition shared3 (j : nat) (p : nat * Reco Nt) : Q :=
    let '(o, r) := p in
    let q := v o j in let x := vN (dd (near3 r)) in let y := vN (dd (seco3 r)) in
    if Qlt_le_dec q x then x / y - q / x else if Qlt_le_dec q y then x / y - x / q else 0.
  Definition ownn3 (j : nat) (p : nat * Reco Nt) : Q :=
    let '(o, r) := p in
    let q := v o j in
    let x := vN (dd (near3 r)) in let y := vN (dd (seco3 r)) in let z := vN (dd (third3 r)) in
    if Qlt_le_dec q x then (q / x + y / z) - (x / y + q / y)
    else if Qlt_le_dec q y then (x / q + y / z) - (x / y + q / y)
    else if Qlt_le_dec q z then y / z - y / q else 0.
  Definition owns3 (j : nat) (p : nat * Reco Nt) : Q :=
    let '(o, r) := p in
    let q := v o j in
    let x := vN (dd (near3 r)) in let y := vN (dd (seco3 r)) in let z := vN (dd (third3 r)) in
    if Qlt_le_dec q x then x / z - x / y
    else if Qlt_le_dec q y then x / z - x / y
    else if Qlt_le_dec q z then x / z - x / q else 0.
  Definition ownp3 (j c : nat) (p : nat * Reco Nt) : Q :=
    (if (as_usize (di (near3 (snd p))) =? c)%nat then ownn3 j p else 0) +
    (if (as_usize (di (seco3 (snd p))) =? c)%nat then owns3 j p else 0).

  Lemma part_split3 j c p : part_of3 D j c p == ownp3 j c p + shared3 j p.
  Proof.
    destruct p as [o r]. unfold part_of3, ownp3, shared3, ownn3, owns3. cbn [snd].
    destruct (Qlt_le_dec _ _); [|destruct (Qlt_le_dec _ _); [|destruct (Qlt_le_dec _ _)]];
      destruct (_ =? _)%nat; destruct (_ =? _)%nat; ring.
  Qed.

  (** one object: what is added, and how far it is from the exact parts *)
  Lemma parts3 med data j o r a b c : inr n med -> data3_ok n D True med data -> nth_error data o = Some r -> (j < n)%nat ->
    rec_x3 D med o r a b c ->
    (- (2) <= ownn3 j (o, r) /\ ownn3 j (o, r) <= 2) /\ (- (2) <= owns3 j (o, r) /\ owns3 j (o, r) <= 2) /\
    (- (2) <= shared3 j (o, r) /\ shared3 j (o, r) <= 2).
  Proof.
    intros hin [hl hd] hr hj hx.
    assert (ho : (o < n)%nat) by (rewrite <- hl; apply nth_error_lt with (1 := hr)).
    destruct (rec3_order hin ho hx) as [o1 o2].
    destruct hx as ((h1 & h2 & h3 & h4 & h5 & h6 & h7 & _) & h8 & _ & _ & h9 & _).
    assert (ha : (nth a med 0 < n)%nat) by auto using inr_nth. pose proof (vpos ho ha) as p. pose proof (vpos ho hj) as p'.
    unfold ownn3, owns3, shared3. rewrite h6, h7, h9.
    change (vN (D o (nth a med 0%nat))) with (v o (nth a med 0%nat)).
    change (vN (D o (nth b med 0%nat))) with (v o (nth b med 0%nat)).
    change (vN (D o (nth c med 0%nat))) with (v o (nth c med 0%nat)).
    set (x := v o (nth a med 0%nat)) in *. set (y := v o (nth b med 0%nat)) in *. set (z := v o (nth c med 0%nat)) in *.
    set (q := v o j) in *. clearbody x y z q.
    pose proof (quo01 p o1). pose proof (@quo01 y z ltac:(lra) o2). pose proof (@quo01 x z p ltac:(lra)).
    destruct (Qlt_le_dec q x); [|destruct (Qlt_le_dec q y); [|destruct (Qlt_le_dec q z)]].
    - pose proof (@quo01 q x p' ltac:(lra)). pose proof (@quo01 q y p' ltac:(lra)). lra.
    - pose proof (@quo01 x q p ltac:(lra)). pose proof (@quo01 q y p' ltac:(lra)). lra.
    - pose proof (@quo01 x q p ltac:(lra)). pose proof (@quo01 y q ltac:(lra) ltac:(lra)). lra.
    - lra.
  Qed.

  Lemma own_bound3 med data j c : inr n med -> (3 <= length med)%nat -> data3_ok n D True med data -> (j < n)%nat ->
    forall p, In p (enum data) -> (- (2) <= ownp3 j c p /\ ownp3 j c p <= 2) /\ (- (2) <= shared3 j p /\ shared3 j p <= 2).
  Proof.
    intros hin hk hdata hj [o r] hr. apply In_enum in hr.
    destruct (rec3_x3 HD hk (proj2 hdata _ _ hr)) as (a & b & c0 & hx).
    destruct (parts3 hin hdata hr hj hx) as (h1 & h2 & h3).
    destruct hx as ((_ & _ & hab & h4 & h5 & _) & _). unfold ownp3. cbn [snd]. rewrite h4, h5. cbn [as_usize].
    split; [|exact h3].
    destruct (Nat.eqb_spec a c); destruct (Nat.eqb_spec b c); try congruence; lra.
  Qed.

  Lemma fbs3_step_near med data j o r (pl : list f64) acc t q s qs : inr n med -> (3 <= length med)%nat -> data3_ok n D True med data ->
    nth_error data o = Some r -> (j < n)%nat -> length pl = length med -> (t + 5 <= 16 * n)%nat -> (s + 3 <= 16 * n)%nat ->
    (forall c, six n (q c + ownp3 j c (o, r))) -> six n (qs + shared3 j (o, r)) ->
    (forall c, (c < length med)%nat -> ap n t (q c) (nth c pl lzero)) -> ap n s qs acc ->
    oks (fbs3_step M j (pl, acc) (o, r)) (fun st => length (fst st) = length med /\
      (forall c, (c < length med)%nat -> ap n (t + 6) (q c + ownp3 j c (o, r)) (nth c (fst st) lzero)) /\
      ap n (s + 4) (qs + shared3 j (o, r)) (snd st)).
  Proof.
    intros hin hk hdata hr hj hpl ht hs hq hqs hP hA. pose proof hdata as [hl hd].
    assert (ho : (o < n)%nat) by (rewrite <- hl; apply nth_error_lt with (1 := hr)).
    destruct (rec3_x3 HD hk (hd _ _ hr)) as (a & b & c0 & hx). destruct (rec3_order hin ho hx) as [o1 o2].
    destruct hx as ((h1 & h2 & h3 & h4 & h5 & h6 & h7 & _) & h8 & _ & _ & h9 & _).
    assert (ha : (nth a med 0 < n)%nat) by auto using inr_nth.
    assert (hb : (nth b med 0 < n)%nat) by auto using inr_nth.
    assert (hc : (nth c0 med 0 < n)%nat) by auto using inr_nth.
    unfold fbs3_step. rewrite (get_ok HM) by auto. cbn [bind]. rewrite h4, h5, h6, h7, h9. cbn [as_usize].
    rewrite !(nltb_dec HD) by auto.
    assert (Po : forall c, ownp3 j c (o, r) == (if (a =? c)%nat then ownn3 j (o, r) else 0) + (if (b =? c)%nat then owns3 j (o, r) else 0)).
    { intros c. unfold ownp3. cbn [snd]. rewrite h4, h5. reflexivity. }
    pose proof (hq a) as hqa. pose proof (hq b) as hqb. unfold six in hqa, hqb.
    pose proof (Po a) as Pa. pose proof (Po b) as Pb. rewrite Nat.eqb_refl in Pa, Pb.
    replace (b =? a)%nat with false in Pa by (symmetry; apply Nat.eqb_neq; auto).
    replace (a =? b)%nat with false in Pb by (symmetry; apply Nat.eqb_neq; auto).
    (* the two slots are different *)
    assert (step2 : forall X Y, ap n 5 (ownn3 j (o, r)) X -> ap n 5 (owns3 j (o, r)) Y ->
      oks (l1 <- add_at pl a X ;; add_at l1 b Y) (fun l2 => length l2 = length med /\
        forall c, (c < length med)%nat -> ap n (t + 6) (q c + ownp3 j c (o, r)) (nth c l2 lzero))).
    { intros X Y hX hY. eapply oks_mono.
      - apply ap_add_at2 with (n := n) (t := t) (tx := 5%nat) (ty := 5%nat) (q := q) (qx := ownn3 j (o, r)) (qy := owns3 j (o, r));
          try lia; auto; unfold six; try lra. rewrite hpl. exact hP.
      - intros l2 [q1 q2]. rewrite hpl in *. split; [exact q1|]. intros c hc'.
        eapply ap_mono; [| |apply q2; auto]; [lia|]. rewrite Po. reflexivity. }
    assert (stepS : forall Z, ap n 3 (shared3 j (o, r)) Z -> ap n (s + 4) (qs + shared3 j (o, r)) (ladd acc Z)).
    { intros Z hZ. eapply ap_mono; [| |apply ap_add with (t1 := s) (t2 := 3%nat) (q1 := qs) (q2 := shared3 j (o, r)); auto]; [lia|reflexivity]. }
    pose proof (vpos ho ha) as pa. pose proof (vpos ho hj) as pj.
    destruct (ratio_ap ho ha hb o1) as (r1 & r1' & r1''). destruct (ratio_ap ho hb hc o2) as (r2 & r2' & r2'').
    destruct (@ratio_ap o (nth a med 0%nat) (nth c0 med 0%nat) ho ha hc ltac:(lra)) as (r3 & r3' & r3'').
    assert (E1 : forall A B (m : res A) (f : A -> res B) (g : B -> res (list f64 * f64)), (x <- m ;; (y <- f x ;; g y)) = (y <- (x <- m ;; f x) ;; g y)).
    { intros A B [x|p] f g; reflexivity. }
    assert (F3 : forall X, ap n 3 (owns3 j (o, r)) X -> ap n 5 (owns3 j (o, r)) X).
    { intros X. apply ap_mono; [lia|reflexivity]. }
    assert (fin : forall X Y acc', ap n 5 (ownn3 j (o, r)) X -> ap n 5 (owns3 j (o, r)) Y -> ap n (s + 4) (qs + shared3 j (o, r)) acc' ->
      oks (pl1 <- add_at pl a X ;; pl2 <- add_at pl1 b Y ;; Ok (pl2, acc')) (fun st => length (fst st) = length med /\
        (forall c, (c < length med)%nat -> ap n (t + 6) (q c + ownp3 j c (o, r)) (nth c (fst st) lzero)) /\
        ap n (s + 4) (qs + shared3 j (o, r)) (snd st))).
    { intros X Y acc' hX hY hacc. rewrite E1. eapply oks_bind; [apply step2; [exact hX|exact hY]|].
      intros l2 [q1 q2]. cbn [oks fst snd]. auto. }
    assert (Pn := eq_refl (ownn3 j (o, r))). assert (Ps := eq_refl (owns3 j (o, r))). assert (Pz := eq_refl (shared3 j (o, r))).
    unfold ownn3 in Pn at 2. unfold owns3 in Ps at 2. unfold shared3 in Pz at 2. rewrite h6, h7, h9 in Pn, Ps. rewrite h6, h7 in Pz.
    change (vN (D o (nth a med 0%nat))) with (v o (nth a med 0%nat)) in Pn, Ps, Pz.
    change (vN (D o (nth b med 0%nat))) with (v o (nth b med 0%nat)) in Pn, Ps, Pz.
    change (vN (D o (nth c0 med 0%nat))) with (v o (nth c0 med 0%nat)) in Pn, Ps.
    destruct (Qlt_le_dec (v o j) (v o (nth a med 0%nat))) as [d1|d1]; [|destruct (Qlt_le_dec (v o j) (v o (nth b med 0%nat))) as [d2|d2];
      [|destruct (Qlt_le_dec (v o j) (v o (nth c0 med 0%nat))) as [d3|d3]]].
    - destruct (@ratio_ap o j (nth a med 0%nat) ho hj ha ltac:(lra)) as (r4 & r4' & r4'').
      pose proof (@ratio_sum_ap o (nth a med 0%nat) j (nth b med 0%nat) ho ha hj hb o1 ltac:(lra)) as r5.
      assert (djb : v o j <= v o (nth b med 0%nat)) by lra.
      destruct (quo01 pj djb) as [r5' r5''].
      apply fin.
      + rewrite Pn. apply ap_sub with (t1 := 3%nat) (t2 := 1%nat); auto; [lia|apply six_small; lra|].
        apply ap_add with (t1 := 1%nat) (t2 := 1%nat); auto; [lia|apply six_small; lra].
      + apply F3. rewrite Ps. apply ap_sub with (t1 := 1%nat) (t2 := 1%nat); auto; [lia|apply six_small; lra].
      + apply stepS. rewrite Pz. apply ap_sub with (t1 := 1%nat) (t2 := 1%nat); auto; [lia|apply six_small; lra].
    - destruct (@ratio_ap o (nth a med 0%nat) j ho ha hj ltac:(lra)) as (r4 & r4' & r4'').
      pose proof (@ratio_sum_ap o (nth a med 0%nat) j (nth b med 0%nat) ho ha hj hb o1 ltac:(lra)) as r5.
      assert (djb : v o j <= v o (nth b med 0%nat)) by lra.
      destruct (quo01 pj djb) as [r5' r5''].
      apply fin.
      + rewrite Pn. apply ap_sub with (t1 := 3%nat) (t2 := 1%nat); auto; [lia|apply six_small; lra|].
        apply ap_add with (t1 := 1%nat) (t2 := 1%nat); auto; [lia|apply six_small; lra].
      + apply F3. rewrite Ps. apply ap_sub with (t1 := 1%nat) (t2 := 1%nat); auto; [lia|apply six_small; lra].
      + apply stepS. rewrite Pz. apply ap_sub with (t1 := 1%nat) (t2 := 1%nat); auto; [lia|apply six_small; lra].
    - destruct (@ratio_ap o (nth a med 0%nat) j ho ha hj ltac:(lra)) as (r4 & r4' & r4'').
      destruct (@ratio_ap o (nth b med 0%nat) j ho hb hj ltac:(lra)) as (r5 & r5' & r5'').
      apply fin.
      + eapply ap_mono with (t := 3%nat); [lia|reflexivity|].
        rewrite Pn. apply ap_sub with (t1 := 1%nat) (t2 := 1%nat); auto; [lia|apply six_small; lra].
      + apply F3. rewrite Ps. apply ap_sub with (t1 := 1%nat) (t2 := 1%nat); auto; [lia|apply six_small; lra].
      + eapply ap_mono; [| |exact hA]; [lia|]. rewrite Pz. lra.
    - cbn [oks fst snd]. split; [auto|]. split.
      + intros c hc'. eapply ap_mono; [| |apply hP; auto]; [lia|]. rewrite Po, Pn, Ps. destruct (_ =? _)%nat; destruct (_ =? _)%nat; lra.
      + eapply ap_mono; [| |exact hA]; [lia|]. rewrite Pz. lra.
  Qed.

  Lemma fbs3_fold_near med data (rl : list f64) j :
    inr n med -> (3 <= length med)%nat -> data3_ok n D True med data -> length rl = length med -> (j < n)%nat -> rl_near3 data rl ->
    oks (foldM (fbs3_step M j) (enum data) (rl, lzero)) (fun st => length (fst st) = length med /\
      (forall c, (c < length med)%nat -> ap n (10 * n) (sumQ (rem_of3 c) data + sumQ (ownp3 j c) (enum data)) (nth c (fst st) lzero)) /\
      ap n (4 * n) (sumQ (shared3 j) (enum data)) (snd st)).
  Proof.
    intros hin hk hdata hrl hj hrn. pose proof hdata as [hl hd]. pose proof (cnt_pos n) as hcn.
    assert (hR : forall c, - (2 * cnt n) <= sumQ (rem_of3 c) data /\ sumQ (rem_of3 c) data <= 2 * cnt n).
    { intros c. apply sum2_bound; [lia|]. eapply rem_bound3; eauto. }
    eapply oks_mono.
    - apply foldM_oks with (I := fun pre (st : list f64 * f64) => length (fst st) = length med /\
        (forall c, (c < length med)%nat ->
           ap n (4 * n + 6 * length pre) (sumQ (rem_of3 c) data + sumQ (ownp3 j c) pre) (nth c (fst st) lzero)) /\
        ap n (4 * length pre) (sumQ (shared3 j) pre) (snd st)).
      + cbn [fst snd]. split; [auto|]. split; [|apply ap_zero].
        intros c hc. eapply ap_mono; [| |apply hrn; lia]; [lia|]. cbn [sumQ fold_right]. lra.
      + intros pre [o r] post [pl acc] e (hs1 & hs2 & hs3). cbn [fst snd] in hs1, hs2, hs3.
        assert (hr : nth_error data o = Some r).
        { apply In_enum. rewrite e. apply in_or_app. simpl. auto. }
        assert (hpl : (length pre < n)%nat).
        { rewrite <- hl, <- (length_enum data), e, app_length. cbn [length]. lia. }
        assert (hpre : forall p, In p (pre ++ [(o, r)]) -> In p (enum data)).
        { intros p hp. rewrite e. apply in_or_app. apply in_app_or in hp as [|[<-|[]]]; simpl; auto. }
        assert (hbo : forall c, - (2 * cnt n) <= sumQ (ownp3 j c) (pre ++ [(o, r)]) /\ sumQ (ownp3 j c) (pre ++ [(o, r)]) <= 2 * cnt n).
        { intros c. apply sum2_bound; [rewrite app_length; cbn [length]; lia|].
          intros p hp. eapply own_bound3; eauto. }
        assert (hbs : - (2 * cnt n) <= sumQ (shared3 j) (pre ++ [(o, r)]) /\ sumQ (shared3 j) (pre ++ [(o, r)]) <= 2 * cnt n).
        { apply sum2_bound; [rewrite app_length; cbn [length]; lia|].
          intros p hp. eapply (@own_bound3 med data j 0); eauto. }
        assert (So : forall c, sumQ (ownp3 j c) (pre ++ [(o, r)]) == sumQ (ownp3 j c) pre + ownp3 j c (o, r)).
        { intros c. rewrite sumQ_app. cbn [sumQ fold_right]. lra. }
        assert (Ss : sumQ (shared3 j) (pre ++ [(o, r)]) == sumQ (shared3 j) pre + shared3 j (o, r)).
        { rewrite sumQ_app. cbn [sumQ fold_right]. lra. }
        rewrite app_length. cbn [length]. eapply oks_mono.
        * apply fbs3_step_near with (med := med) (data := data) (t := (4 * n + 6 * length pre)%nat)
            (q := fun c => sumQ (rem_of3 c) data + sumQ (ownp3 j c) pre) (s := (4 * length pre)%nat) (qs := sumQ (shared3 j) pre); auto; try lia.
          -- intros c. specialize (hR c). specialize (hbo c). specialize (So c). unfold six. lra.
          -- unfold six. lra.
        * intros [pl' acc'] (q1 & q2 & q3). cbn [fst snd] in *. split; [auto|]. split.
          -- intros c hc. eapply ap_mono; [| |apply q2; auto]; [lia|]. rewrite So. ring.
          -- eapply ap_mono; [| |exact q3]; [lia|]. rewrite Ss. reflexivity.
    - intros [pl acc] (h1 & h2 & h3). cbn [fst snd] in *. rewrite length_enum, hl in *. split; [auto|]. split; [|exact h3].
      intros c hc. eapply ap_mono; [| |apply h2; lia]; [lia|reflexivity].
  Qed.

  (** the exact gain of a swap, as a decrease of the sum of the ratios *)
  Definition gain (med : list nat) (b j : nat) : Q := rtot v n med - rtot v n (swap med b j).

  Definition slot_near3 (med : list nat) (j : nat) (p : f64 * nat) : Prop :=
    (snd p < length med)%nat /\ f64_finite (fst p) /\ close (err3 n) (gain med (snd p) j) (fst p) /\
    (forall c, (c < length med)%nat -> gain med c j <= f64_val (fst p) + err3 n).

  Lemma find_best_swap3_near med data (rl : list f64) j :
    inr n med -> (3 <= length med)%nat -> data3_ok n D True med data -> length rl = length med -> (j < n)%nat -> rl_near3 data rl ->
    oks (find_best_swap3 M rl data j) (slot_near3 med j).
  Proof.
    intros hin hk hdata hrl hj hrn. pose proof hdata as [hl hd]. unfold find_best_swap3. pose proof (cnt_pos n).
    eapply oks_bind; [apply fbs3_fold_near; eauto|].
    intros [pl acc] (hs1 & hs2 & hs3). cbn [fst snd] in hs1, hs2, hs3.
    eapply oks_bind; [apply find_max_f64|].
    - intros ->. simpl in hs1. lia.
    - intros x hx. apply (In_nth _ _ (lzero : f64)) in hx as (c & hc & <-). apply hs2. lia.
    - intros [b bl] (q1 & q2 & q3). cbn [fst snd] in *. rewrite hs1 in *. cbn [oks].
      assert (hdel : forall c, (c < length med)%nat ->
        sumQ (rem_of3 c) data + sumQ (ownp3 j c) (enum data) + sumQ (shared3 j) (enum data) == gain med c j).
      { intros c hc. unfold gain. rewrite <- (part_delta3 HD hin hk hj hc hdata).
        rewrite (sumQ_ext (part_of3 D j c) (fun p => ownp3 j c p + shared3 j p)) by (intros; apply part_split3).
        rewrite sumQ_plus. ring. }
      assert (hle : (length (enum data) <= n)%nat) by (rewrite length_enum; lia).
      assert (hbs : - (2 * cnt n) <= sumQ (shared3 j) (enum data) /\ sumQ (shared3 j) (enum data) <= 2 * cnt n).
      { apply sum2_bound; [auto|]. intros p hp. eapply (@own_bound3 med data j 0); eauto. }
      assert (hbo : - (2 * cnt n) <= sumQ (ownp3 j b) (enum data) /\ sumQ (ownp3 j b) (enum data) <= 2 * cnt n).
      { apply sum2_bound; [auto|]. intros p hp. eapply (@own_bound3 med data j b); eauto. }
      assert (hbr : - (2 * cnt n) <= sumQ (rem_of3 b) data /\ sumQ (rem_of3 b) data <= 2 * cnt n).
      { apply sum2_bound; [lia|]. eapply rem_bound3; eauto. }
      pose proof (hs2 b q1) as hb. rewrite <- q2 in hb.
      assert (hsum : ap n (S (10 * n + 4 * n)) (sumQ (rem_of3 b) data + sumQ (ownp3 j b) (enum data) + sumQ (shared3 j) (enum data)) (ladd bl acc)).
      { apply ap_add; auto; [lia|unfold six; lra]. }
      destruct (@ap_close _ n (S (10 * n + 4 * n)) _ _ ltac:(lia) hsum) as [g1 g2].
      unfold slot_near3. cbn [fst snd]. split; [auto|]. split; [auto|].
      split; [eapply close_ext; [reflexivity|apply hdel; auto|exact g2]|].
      intros c hc. specialize (q3 c hc). destruct (hs2 c hc) as [_ [c1 c2]]. destruct hb as [fb [b1 b2]].
      destruct hs3 as [fa [a1 a2]]. rewrite <- (hdel c hc).
      pose proof (@few _ n Hn32 (10 * n + 4 * n) ltac:(lia)) as he. rewrite cnt_add in he.
      pose proof (dl_pos n) as hdp. assert (hn4 : 0 <= cnt (10 * n) * dl n) by (apply Qmult_le_0_compat; [apply cnt_pos|auto]).
      assert (hn2 : 0 <= cnt (4 * n) * dl n) by (apply Qmult_le_0_compat; [apply cnt_pos|auto]).
      destruct (@add_near bl acc (8 * cnt n) fb fa) as [_ [g3 _]]; [lra|lra|apply big8; auto|]. pose proof (dl_ge n) as hge.
      cbn [ladd NumL_f64].
      pose proof (@err3_few _ n (S (10 * n + 4 * n)) ltac:(lia)) as he'. rewrite cnt_S, cnt_add in he'. lra.
  Qed.

  (** ** pammedsil.rs: the change of one swap *)
  Lemma quo_term o a b a' b' : (o < n)%nat -> (a < n)%nat -> (b < n)%nat -> (a' < n)%nat -> (b' < n)%nat ->
    v o a <= v o b -> v o a' <= v o b' ->
    ap n 3 (v o a / v o b - v o a' / v o b') (lsub (ratio (D o a) (D o b)) (ratio (D o a') (D o b'))) /\
    - (2) <= v o a / v o b - v o a' / v o b' /\ v o a / v o b - v o a' / v o b' <= 2.
  Proof.
    intros ho ha hb ha' hb' h1 h2. destruct (ratio_ap ho ha hb h1) as (r1 & r1' & r1'').
    destruct (ratio_ap ho ha' hb' h2) as (r2 & r2' & r2''). split; [|lra].
    apply ap_sub with (t1 := 1%nat) (t2 := 1%nat); auto; [lia|apply six_small; lra].
  Qed.

  Definition term_near (acc : f64) (q : Q) (x : f64) : Prop :=
    - (2) <= q /\ q <= 2 /\ ((x = acc /\ q == 0) \/ exists y, x = ladd acc y /\ ap n 3 q y).

  Lemma term_same acc q : q == 0 -> term_near acc q acc.
  Proof. intros h. split; [lra|]. split; [lra|]. left. auto. Qed.

  Lemma term_quo acc q o a b a' b' : (o < n)%nat -> (a < n)%nat -> (b < n)%nat -> (a' < n)%nat -> (b' < n)%nat ->
    v o a <= v o b -> v o a' <= v o b' -> q == v o a / v o b - v o a' / v o b' ->
    term_near acc q (ladd acc (lsub (ratio (D o a) (D o b)) (ratio (D o a') (D o b')))).
  Proof.
    intros ho ha hb ha' hb' h1 h2 e. destruct (quo_term ho ha hb ha' hb' h1 h2) as (t1 & t2 & t3).
    split; [lra|]. split; [lra|]. right. eexists. split; [reflexivity|]. eapply ap_mono; [| |exact t1]; [auto|]. lra.
  Qed.

  Lemma pms_step_near med data j m (acc : f64) o r :
    inr n med -> data3_ok n D True med data -> (2 <= length med)%nat -> (m < length med)%nat -> (j < n)%nat ->
    nth_error data o = Some r ->
    oks ((if (length med =? 2)%nat then pms2_step M else pms_step M) j m acc (o, r)) (term_near acc (pms_term D med j m o)).
  Proof.
    intros hin [hl hd] hk hm hj hr.
    assert (ho : (o < n)%nat) by (rewrite <- hl; apply nth_error_lt with (1 := hr)).
    unfold pms_term. destruct (length med =? 2)%nat eqn:ek.
    - apply Nat.eqb_eq in ek. unfold pms2_step. destruct (o =? j)%nat; [cbn [oks]; apply term_same; reflexivity|].
      rewrite (get_ok HM) by auto. cbn [bind].
      destruct (rec3_x2 HD (hd _ _ hr)) as (a & b & hx).
      destruct (rec_x2_ratio hx) as [e1 _].
      destruct hx as (h1 & h2 & h3 & h4 & h5 & h6 & h7 & m1 & m2).
      pose proof (@near_ratio_swap2 v o med a b m j ek ltac:(lia) ltac:(lia) h3 ltac:(lia)) as e2.
      cbv zeta in e2. revert e2.
      rewrite h4, h5, h6, h7. cbn [as_usize].
      assert (ha : (nth a med 0 < n)%nat) by auto using inr_nth.
      assert (hb : (nth b med 0 < n)%nat) by auto using inr_nth.
      assert (hxy := m1 b h2).
      rewrite !(nltb_dec HD) by auto. rewrite (Nat.eqb_sym m a).
      destruct (a =? m)%nat eqn:ea.
      + destruct (Qlt_le_dec (v o j) (v o (nth b med 0%nat))); intros e2; cbn [oks];
          apply term_quo; auto; lra.
      + apply Nat.eqb_neq in ea. replace (b =? m)%nat with true by (symmetry; apply Nat.eqb_eq; lia).
        destruct (Qlt_le_dec (v o j) (v o (nth a med 0%nat))); intros e2; cbn [oks];
          apply term_quo; auto; lra.
    - apply Nat.eqb_neq in ek. unfold pms_step. destruct (o =? j)%nat; [cbn [oks]; apply term_same; reflexivity|].
      rewrite (get_ok HM) by auto. cbn [bind].
      assert (hk3 : (3 <= length med)%nat) by lia.
      destruct (rec3_x3 HD hk3 (hd o r hr)) as (a & b & c0 & hx & h8 & h10 & h11 & h9 & m3).
      destruct (rec_x2_ratio hx) as [e1 _].
      destruct hx as (h1 & h2 & h3 & h4 & h5 & h6 & h7 & hmm).
      pose proof (near_ratio_swap j h1 h2 h8 h3 h10 h11 hmm m3 hm) as e2. cbv zeta in e2. revert e2.
      rewrite h4, h5, h6, h7, h9. cbn [as_usize].
      assert (ha : (nth a med 0 < n)%nat) by auto using inr_nth.
      assert (hb : (nth b med 0 < n)%nat) by auto using inr_nth.
      assert (hc : (nth c0 med 0 < n)%nat) by auto using inr_nth.
      destruct hmm as [m1 m2]. assert (hxy := m1 b h2). assert (hyz := m2 c0 h8 h10).
      rewrite !(nltb_dec HD) by auto.
      rewrite (Nat.eqb_sym m a), (Nat.eqb_sym m b).
      destruct (a =? m)%nat; [|destruct (b =? m)%nat];
        destruct (Qlt_le_dec (v o j) (v o (nth a med 0%nat)));
        destruct (Qlt_le_dec (v o j) (v o (nth b med 0%nat)));
        destruct (Qlt_le_dec (v o j) (v o (nth c0 med 0%nat))); intros e2; cbn [oks];
        first [apply term_quo; auto; lra|apply term_same; lra|exfalso; lra].
  Qed.

  Lemma pms_gain med data j m : inr n med -> data3_ok n D True med data -> (2 <= length med)%nat -> (m < length med)%nat -> (j < n)%nat ->
    near_ratio v j med + sumQ (fun p => pms_term D med j m (fst p)) (enum data) == gain med m j.
  Proof.
    intros hin [hl hd] hk hm hj. rewrite <- (@sumQ_enum3 _ n data (pms_term D med j m)) by auto.
    unfold gain, rtot. rewrite <- sumQ_minus.
    assert (hz : near_ratio v j (swap med m j) == 0).
    { rewrite swap_set_nth by auto. apply (near_ratio_self HD); auto.
      - apply inr_set_nth; auto.
      - rewrite length_set_nth. auto.
      - rewrite <- (nth_set_nth_eq med j 0%nat hm) at 1. apply nth_In. rewrite length_set_nth. auto. }
    rewrite (sumQ_ext (fun x0 => near_ratio v x0 med - near_ratio v x0 (swap med m j))
               (fun o => pms_term D med j m o + (if (o =? j)%nat then near_ratio v j med else 0))).
    - rewrite sumQ_plus, sumQ_single by auto. lra.
    - intros o ho. unfold pms_term. destruct (o =? j)%nat eqn:e; [|lra].
      apply Nat.eqb_eq in e. subst o. lra.
  Qed.

  Lemma rec_ratio_in med o r : inr n med -> (o < n)%nat -> rec3 n D True (length med) med o r ->
    within 0 1 (rec_ratio r) /\ close (2 ^ (-53)) (near_ratio v o med) (rec_ratio r).
  Proof.
    intros hin ho hr. destruct (rec3_x2 HD hr) as (a & b & hx). destruct (rec_x2_ratio hx) as [e _].
    destruct hx as (h1 & h2 & h3 & h4 & h5 & h6 & h7 & m1 & m2). unfold rec_ratio. rewrite h6, h7.
    destruct (@ratio_in o (nth a med 0%nat) (nth b med 0%nat) ho ltac:(auto using inr_nth) ltac:(auto using inr_nth) (m1 b h2)) as [q1 q2].
    split; [exact q1|]. eapply close_ext; [reflexivity|symmetry; exact e|exact q2].
  Qed.

  Lemma pms_change_near med data j m r :
    inr n med -> data3_ok n D True med data -> (2 <= length med)%nat -> (m < length med)%nat -> (j < n)%nat -> nth_error data j = Some r ->
    oks (foldM ((if (length med =? 2)%nat then pms2_step M else pms_step M) j m) (enum data) (ratio (dd (near3 r)) (dd (seco3 r))))
      (fun x => f64_finite x /\ close (err3 n) (gain med m j) x).
  Proof.
    intros hin hdata hk hm hj hr. pose proof hdata as [hl hd]. pose proof (cnt_pos n) as hcn. pose proof (n1 Hn) as hn1.
    assert (hb : forall o ro, nth_error data o = Some ro -> - (2) <= pms_term D med j m o /\ pms_term D med j m o <= 2).
    { intros o ro hro. pose proof (@pms_step_near med data j m lzero o ro hin hdata hk hm hj hro) as h.
      apply oks_inv in h as (x & _ & h1 & h2 & _). auto. }
    destruct (rec_ratio_in hin hj (hd j r hr)) as [w1 w2].
    assert (w3 : 0 <= near_ratio v j med /\ near_ratio v j med <= 1).
    { destruct (rec3_x2 HD (hd j r hr)) as (a & b & hx). destruct (rec_x2_ratio hx) as [-> _].
      destruct hx as (h1 & h2 & _ & _ & _ & _ & _ & m1 & _). apply quo01; [apply vpos; auto using inr_nth|apply m1; auto]. }
    eapply oks_mono.
    - apply foldM_oks with (I := fun pre (x : f64) =>
        ap n (1 + 4 * length pre) (near_ratio v j med + sumQ (fun p => pms_term D med j m (fst p)) pre) x).
      + cbn [length sumQ fold_right Nat.mul Nat.add]. split; [apply w1|]. change (ratio _ _) with (rec_ratio (Lt := f64) r).
        pose proof (dl_unit Hn). pose proof serr_lo. assert (0 < 2 ^ (-53)) by reflexivity.
        eapply close_ext; [reflexivity| |eapply close_le; [|exact w2]]; [lra|]. change (cnt 1) with 1. lra.
      + intros pre [o ro] post x e hx.
        assert (hro : nth_error data o = Some ro).
        { apply In_enum. rewrite e. apply in_or_app. simpl. auto. }
        assert (hpl : (length pre < n)%nat).
        { rewrite <- hl, <- (length_enum data), e, app_length. cbn [length]. lia. }
        assert (hpre : forall p, In p (pre ++ [(o, ro)]) -> In p (enum data)).
        { intros p hp. rewrite e. apply in_or_app. apply in_app_or in hp as [|[<-|[]]]; simpl; auto. }
        assert (hbs : - (2 * cnt n) <= sumQ (fun p => pms_term D med j m (fst p)) (pre ++ [(o, ro)]) /\
          sumQ (fun p => pms_term D med j m (fst p)) (pre ++ [(o, ro)]) <= 2 * cnt n).
        { apply sum2_bound; [rewrite app_length; cbn [length]; lia|].
          intros [o' r'] hp. apply hpre in hp. apply In_enum in hp. cbn [fst]. eapply hb; eauto. }
        assert (Ss : sumQ (fun p => pms_term D med j m (fst p)) (pre ++ [(o, ro)]) ==
          sumQ (fun p => pms_term D med j m (fst p)) pre + pms_term D med j m o).
        { rewrite sumQ_app. cbn [sumQ fold_right fst]. lra. }
        eapply oks_mono; [eapply pms_step_near; eauto|].
        rewrite app_length. cbn [length].
        intros y (h1 & h2 & [[-> h3]|(z & -> & h3)]).
        * eapply ap_mono; [| |exact hx]; [lia|]. rewrite Ss, h3. lra.
        * eapply ap_mono; [| |apply ap_add with (t1 := (1 + 4 * length pre)%nat) (t2 := 3%nat)
               (q1 := near_ratio v j med + sumQ (fun p => pms_term D med j m (fst p)) pre) (q2 := pms_term D med j m o)]; auto.
          -- lia.
          -- rewrite Ss. ring.
          -- lia.
          -- unfold six. lra.
    - intros x hx. cbv beta in hx. rewrite length_enum, hl in hx.
      apply (@ap_close _ n (1 + 4 * n)); [lia|]. eapply ap_mono; [| |exact hx]; [lia|]. apply pms_gain; auto.
  Qed.

  (** ** the loss *)
  Lemma map_nth_seq A (l : list A) d : map (fun i => nth i l d) (seq 0 (length l)) = l.
  Proof.
    induction l as [|x l IH]; [reflexivity|]. cbn [length seq map nth]. f_equal. rewrite <- IH at 2.
    rewrite <- seq_shift, map_map. reflexivity.
  Qed.

  Lemma sum_err_small : 64 * sum_err n <= err3 n.
  Proof.
    unfold sum_err, err3. pose proof (n1 Hn) as hn1.
    assert (e : 2 ^ (-46) == 128 * 2 ^ (-53)) by reflexivity. rewrite e.
    assert (h : cnt n * (cnt n + 3) / 2 <= 2 * (cnt n * cnt n)).
    { apply Qle_shift_div_r; [reflexivity|]. assert (h : cnt n * 1 <= cnt n * cnt n) by (apply Qmult_le_l; lra). lra. }
    assert (hu : 0 < 2 ^ (-53)) by reflexivity.
    assert (h2 : 2 ^ (-53) * (cnt n * (cnt n + 3) / 2) <= 2 ^ (-53) * (2 * (cnt n * cnt n))) by (apply Qmult_le_l; auto).
    assert (h3 : 0 <= cnt n * (serr - 2 ^ (-53))) by (pose proof serr_lo; apply Qmult_le_0_compat; lra). lra.
  Qed.

  Definition loss_near (med : list nat) (s : f64) : Prop := within 0 (cnt n) s /\ close (sum_err n) (rtot v n med) s.

  Lemma loss3_near med data s : inr n med -> data3_ok n D True med data -> MscShape.ratio_sum data = Some s -> loss_near med s.
  Proof.
    intros hin [hl hd] hs. unfold MscShape.ratio_sum in hs.
    set (d0 := mkReco (DP None nzero) (DP None nzero) (DP (Nt := Nt) None nzero)).
    assert (hd' : forall o, (o < n)%nat -> rec3 n D True (length med) med o (nth o data d0)).
    { intros o ho. apply hd. apply nth_error_nth'. lia. }
    assert (em : map (rec_ratio (Lt := f64)) data = map (fun o => rec_ratio (nth o data d0)) (seq 0 n)).
    { rewrite <- hl. rewrite <- (map_map (fun o => nth o data d0)). f_equal. symmetry. apply map_nth_seq. }
    rewrite em in hs.
    destruct (@FloatSil.ratio_sum (fun o => rec_ratio (nth o data d0)) (fun o => near_ratio v o med) n Hn) as (s' & e & h1 & h2).
    - apply fits_u32. auto.
    - intros o ho. apply rec_ratio_in; auto.
    - rewrite e in hs. injection hs as <-. split; [exact h1|exact h2].
  Qed.

  (** ** the best swap *)
  Definition best_near3 (med : list nat) (t : nat) (best : f64 * option (nat * nat)) : Prop :=
    f64_finite (fst best) /\ 0 <= f64_val (fst best) /\
    match snd best with
    | None => f64_val (fst best) == 0
    | Some (b, j) => (b < length med)%nat /\ (j < n)%nat /\ ~ In j med /\ close (err3 n) (gain med b j) (fst best)
    end /\
    (forall j c, (j < t)%nat -> ~ In j med -> (c < length med)%nat -> gain med c j <= f64_val (fst best) + err3 n).

  Lemma best3_0 med : best_near3 med 0 (lzero, None).
  Proof. split; [exact I|]. cbn [fst snd]. rewrite zero_val. split; [lra|]. split; [reflexivity|]. intros; lia. Qed.

  Lemma best3_medoid med j best : In j med -> best_near3 med j best -> best_near3 med (S j) best.
  Proof.
    intros hj (h1 & h2 & h3 & h4). split; [auto|]. split; [auto|]. split; [auto|].
    intros i c hi hni hc. apply h4; auto. assert (i <> j) by congruence. lia.
  Qed.

  Lemma best3_keep med j best x : best_near3 med j best -> f64_finite x -> lleb x (fst best) = true ->
    (forall c, (c < length med)%nat -> gain med c j <= f64_val x + err3 n) -> best_near3 med (S j) best.
  Proof.
    intros (h1 & h2 & h3 & h4) hf hle hx. split; [auto|]. split; [auto|]. split; [auto|].
    apply f64_lleb in hle; auto.
    intros i c hi hni hc. destruct (Nat.eq_dec i j) as [->|]; [|apply h4; auto; lia]. specialize (hx c hc). lra.
  Qed.

  Lemma best3_new med j best x b : best_near3 med j best -> f64_finite x -> lleb x (fst best) = false ->
    (b < length med)%nat -> (j < n)%nat -> ~ In j med -> close (err3 n) (gain med b j) x ->
    (forall c, (c < length med)%nat -> gain med c j <= f64_val x + err3 n) -> best_near3 med (S j) (x, Some (b, j)).
  Proof.
    intros (h1 & h2 & h3 & h4) hf hle hb hj hnj hc hx. apply f64_lleb_false in hle; auto. unfold best_near3. cbn [fst snd].
    split; [auto|]. split; [lra|]. split; [auto|].
    intros i c hi hni hc'. destruct (Nat.eq_dec i j) as [->|]; [apply hx; auto|]. specialize (h4 i c ltac:(lia) hni hc'). lra.
  Qed.

  (** the state of fastmsc and pammedsil *)
  Record q_all (k : nat) (st : mst Nt f64) : Prop := {
    qa_inv : q_inv n D k st;
    qa_own : data3_own (m_med st) (m_data st);
    qa_nodup : NoDup (m_med st);
    qa_loss : loss_near (m_med st) (m_loss st)
  }.

  Lemma fastmsc_cand_near k (st : mst Nt f64) (rl : list f64) best j :
    (3 <= k)%nat -> q_all k st -> length rl = k -> rl_near3 (m_data st) rl -> (j < n)%nat -> best_near3 (m_med st) j best ->
    oks (fastmsc_cand M (m_med st) (m_data st) rl best j) (best_near3 (m_med st) (S j)).
  Proof.
    intros hk [[i1 i2 i3] hown _ _] hl hrl hj hb. unfold fastmsc_cand.
    destruct (nth_error_ex (m_data st) (i := j)) as [r hr]; [destruct i3; lia|].
    rewrite (idx_some _ _ hr). cbn [bind].
    destruct (rec3_near (proj2 i3 j r hr)) as (a & a' & ea & ha & _).
    rewrite ea. cbn [as_usize]. rewrite idx_nth with (d := 0%nat) by auto. cbn [bind].
    destruct (j =? nth a (m_med st) 0)%nat eqn:em.
    { apply Nat.eqb_eq in em. cbn [oks]. apply best3_medoid; auto. rewrite em. apply nth_In. auto. }
    apply Nat.eqb_neq in em.
    assert (hjm : ~ In j (m_med st)) by eauto using own3_not_in.
    eapply oks_bind; [apply find_best_swap3_near with (med := m_med st); auto; lia|].
    intros [x b] (s1 & s2 & s3 & s4). cbn [fst snd] in *.
    destruct (lleb x (fst best)) eqn:el; cbn [oks]; [eapply best3_keep; eauto|eapply best3_new; eauto].
  Qed.

  Lemma pms_cand_near k (st : mst Nt f64) best j :
    (2 <= k)%nat -> q_all k st -> (j < n)%nat -> best_near3 (m_med st) j best ->
    oks (pms_cand M (m_med st) (m_data st) best j) (best_near3 (m_med st) (S j)).
  Proof.
    intros hk [[i1 i2 i3] hown _ _] hj hb. unfold pms_cand.
    destruct (nth_error_ex (m_data st) (i := j)) as [r hr]; [destruct i3; lia|].
    rewrite (idx_some _ _ hr). cbn [bind].
    destruct (rec3_near (proj2 i3 j r hr)) as (a & a' & ea & ha & _).
    rewrite ea. cbn [as_usize]. rewrite idx_nth with (d := 0%nat) by auto. cbn [bind].
    destruct (j =? nth a (m_med st) 0)%nat eqn:em.
    { apply Nat.eqb_eq in em. cbn [oks]. apply best3_medoid; auto. rewrite em. apply nth_In. auto. }
    apply Nat.eqb_neq in em.
    assert (hjm : ~ In j (m_med st)) by eauto using own3_not_in.
    unfold find_best_swap_pms. rewrite (idx_some _ _ hr). cbn [bind].
    assert (hk' : (2 <= length (m_med st))%nat) by lia.
    eapply oks_bind.
    - apply foldM_seq with (I := fun t (p : f64 * option nat) => f64_finite (fst p) /\
        match snd p with None => f64_val (fst p) == 0
        | Some b => (b < length (m_med st))%nat /\ close (err3 n) (gain (m_med st) b j) (fst p) end /\
        (forall c, (c < t)%nat -> gain (m_med st) c j <= f64_val (fst p) + err3 n)).
      + cbn [fst snd]. split; [exact I|]. split; [rewrite zero_val; reflexivity|]. intros; lia.
      + intros m p hm (p1 & p2 & p3).
        eapply oks_bind; [apply pms_change_near with (med := m_med st); eauto|].
        intros acc [ha1 [ha2 ha3]]. cbn [oks]. destruct (lltb (fst p) acc) eqn:el.
        * apply f64_lltb in el; auto. cbn [fst snd]. split; [auto|]. split; [split; [auto|split; auto]|].
          intros c hc. destruct (Nat.eq_dec c m) as [->|]; [lra|]. specialize (p3 c ltac:(lia)). lra.
        * apply f64_lltb_false in el; auto. split; [auto|]. split; [auto|].
          intros c hc. destruct (Nat.eq_dec c m) as [->|]; [lra|]. apply p3; lia.
    - intros [x ob] (p1 & p2 & p3). cbn [fst snd] in *.
      destruct (lleb x (fst best)) eqn:el; cbn [oks]; [eapply best3_keep; eauto|].
      destruct ob as [b|]; [destruct p2; eapply best3_new; eauto|].
      (* the initial value is not above the best one *)
      exfalso. destruct hb as (h1 & h2 & _). apply f64_lleb_false in el; auto. lra.
  Qed.

  (** ** where fastmsc and pammedsil stop *)
  Definition eps3 : Q := cnt n * cnt n * 2 ^ (-44) + 128 * (cnt n * (serr - 2 ^ (-53))).
  Lemma eps3_err : eps3 == 4 * err3 n.
  Proof. unfold eps3, err3. assert (e : 2 ^ (-44) == 4 * 2 ^ (-46)) by reflexivity. rewrite e. ring. Qed.

  (** no swap with an object that is not a medoid gains more than [e] *)
  Definition nearly3 (e : Q) (med : list nat) : Prop :=
    forall b j, (b < length med)%nat -> (j < n)%nat -> ~ In j med -> gain med b j <= e.

  (** [med] are the medoids of a state and [s] is its loss *)
  Definition stopped3 (k : nat) (med : list nat) (s : f64) : Prop :=
    exists med0, medoids n k med0 /\ nearly3 eps3 med0 /\
      (med = med0 \/ exists b j, (b < k)%nat /\ (j < n)%nat /\ ~ In j med0 /\ med = swap med0 b j) /\
      loss_near med0 s /\
      rtot v n med0 - eps3 <= rtot v n med /\ rtot v n med <= rtot v n med0 + eps3.

  Let zi : lltb (lzero : f64) lzero = false := eq_refl.

  Lemma swap3_sum (data : list (Reco Nt)) loss b j :
    ratio_sum0 (Lt := f64) j data = Some loss -> (forall r, nth_error data j = Some r -> near3 r = DP (Some b) nzero) ->
    MscShape.ratio_sum data = Some loss.
  Proof.
    intros h1 h2. rewrite <- h1. symmetry. apply ratio_sum0_ratio_sum; [apply zero_is_zero|].
    intros r hr. rewrite (h2 r hr). auto.
  Qed.

  Lemma swap_best3_near k (st : mst Nt f64) rl best :
    (2 <= k)%nat -> q_all k st -> best_near3 (m_med st) n best ->
    oks (swap_best3 M st rl best) (fun c => match c with
      | Next s => q_all k s /\ m_rl s = rl /\ m_iter s = m_iter st /\ f64_val (m_loss s) <= f64_val (m_loss st)
      | Break s => m_iter s = m_iter st /\ m_loss s = m_loss st /\ stopped3 k (m_med s) (m_loss s)
      end).
  Proof.
    intros hk hi (b1 & b2 & b3 & b4). pose proof (qa_loss hi) as hloss.
    pose proof hi as [[i1 i2 i3] hown hnd hsum]. unfold swap_best3.
    pose proof hloss as [(lf & lw1 & lw2) [l1 l2]].
    pose proof sum_err_small as hle. pose proof eps3_err as hee. pose proof (err3_pos n) as hep.
    destruct (lltb lzero (fst best)) eqn:e.
    - apply f64_lltb in e; [|exact I|auto]. rewrite zero_val in e.
      destruct (snd best) as [[b j]|] eqn:es; [|lra].
      destruct b3 as (hb & hj & hjm & b3 & b3').
      assert (hk' : (2 <= length (m_med st))%nat) by lia.
      pose proof (do_swap3_ok (Lt := f64) HM Hn i2 hj hb hk' i3) as hs.
      apply oks_inv in hs as ([[med' data'] loss'] & -> & -> & hd & s2 & s3 & s4). cbn [bind].
      pose proof (@swap3_sum data' loss' b j s2 s3) as hs'.
      pose proof (loss3_near (inr_set_nth b i2 hj) hd hs') as hl3. pose proof hl3 as [(lf' & _) [l1' l2']].
      destruct (lleb (m_loss st) loss') eqn:el; cbn [oks m_iter m_loss m_med].
      + apply f64_lleb in el; auto. split; [auto|]. split; [auto|]. exists (m_med st).
        unfold gain in b3, b3'. rewrite swap_set_nth in b3, b3' by auto.
        split; [split; auto|]. split.
        { intros c i hc hi' hni. specialize (b4 i c hi' hni hc). lra. }
        split; [right; exists b, j; split; [lia|]; split; [auto|]; split; [auto|]; symmetry; apply swap_set_nth; auto|].
        split; [auto|]. lra.
      + apply f64_lleb_false in el; auto. cbn [m_rl]. split; [|split; [auto|split; [auto|lra]]].
        constructor; cbn [m_med m_data m_loss].
        * constructor; cbn [m_med m_data]; auto; [rewrite length_set_nth; auto|apply inr_set_nth; auto].
        * eapply s4; eauto.
        * apply NoDup_set_nth; auto.
        * auto.
    - apply f64_lltb_false in e; [|exact I|auto]. rewrite zero_val in e.
      cbn [oks m_iter m_loss m_med]. split; [auto|]. split; [auto|]. exists (m_med st).
      split; [split; auto|]. split.
      { intros c i hc hi' hni. specialize (b4 i c hi' hni hc). lra. }
      split; [auto|]. split; [auto|]. lra.
  Qed.

  (** the state at the end: [L0] is the loss at the beginning *)
  Definition ended3 (k maxiter : nat) (L0 : f64) (med : list nat) (s : f64) (it : nat) : Prop :=
    f64_val s <= f64_val L0 /\ within 0 (cnt n) s /\ close (sum_err n + eps3) (rtot v n med) s /\
    (exists x, close (sum_err n) x s /\ x - eps3 <= rtot v n med /\ rtot v n med <= x + eps3) /\
    ((it < maxiter)%nat -> stopped3 k med s).

  Lemma ended_stopped k maxiter L0 med s it : f64_val s <= f64_val L0 -> stopped3 k med s -> ended3 k maxiter L0 med s it.
  Proof.
    intros h0 h. pose proof h as (med0 & _ & _ & _ & [h1 h2] & h3 & h4). split; [auto|]. split; [auto|].
    split; [unfold close in *; lra|]. split; [exists (rtot v n med0); auto|auto].
  Qed.

  Lemma ended_limit k maxiter L0 med s : f64_val s <= f64_val L0 -> loss_near med s -> ended3 k maxiter L0 med s maxiter.
  Proof.
    intros h0 [h1 h2]. pose proof eps3_err. pose proof (err3_pos n). split; [auto|]. split; [auto|].
    split; [unfold close in *; lra|]. split; [exists (rtot v n med); split; [auto|]; lra|lia].
  Qed.

  Lemma steep3_near k maxiter (body : mst Nt f64 -> res (ctl (mst Nt f64))) (good : mst Nt f64 -> Prop) (st : mst Nt f64) :
    (forall s, q_all k s -> good s -> oks (body s) (fun c => match c with
      | Next s' => q_all k s' /\ good s' /\ m_iter s' = S (m_iter s) /\ f64_val (m_loss s') <= f64_val (m_loss s)
      | Break s' => m_iter s' = S (m_iter s) /\ m_loss s' = m_loss s /\ stopped3 k (m_med s') (m_loss s')
      end)) ->
    q_all k st -> good st -> m_iter st = 0%nat ->
    oks (whileM maxiter body st) (fun s => ended3 k maxiter (m_loss st) (m_med s) (m_loss s) (m_iter s)).
  Proof.
    intros hbody hq hg hit. remember (m_loss st) as L0 eqn:eL.
    apply whileM_oks with (I := fun i s => q_all k s /\ good s /\ m_iter s = i /\ f64_val (m_loss s) <= f64_val L0).
    - rewrite <- eL. split; [auto|]. split; [auto|]. split; [auto|]. lra.
    - clear st hq hg hit eL. intros i s hlt (hq & hg & hit & hL).
      eapply oks_mono; [apply (hbody s hq hg)|]. intros [s'|s'].
      + intros (q1 & q2 & q3 & q4). split; [auto|]. split; [auto|]. split; [congruence|lra].
      + intros (q1 & q2 & q3). apply ended_stopped; [rewrite q2|]; auto.
    - intros s (q1 & q2 & q3 & q4). rewrite q3. apply ended_limit; auto. apply qa_loss with k. auto.
  Qed.

  Lemma inc3_all k st : q_all k st -> q_all k (inc3 st).
  Proof. intros [[] ? ? ?]. constructor; auto. constructor; auto. Qed.

  Lemma fastmsc_near k maxiter (st : mst Nt f64) :
    (3 <= k)%nat -> q_all k st -> length (m_rl st) = k -> m_iter st = 0%nat ->
    oks (whileM maxiter (fastmsc_iteration M) st) (fun s => ended3 k maxiter (m_loss st) (m_med s) (m_loss s) (m_iter s)).
  Proof.
    intros hk hq hl hit. apply steep3_near with (good := fun s => length (m_rl s) = k); auto.
    clear st hq hl hit. intros st hq hl. unfold fastmsc_iteration. fold (inc3 st).
    pose proof (inc3_all hq) as hq1. pose proof hq1 as [[i1 i2 i3] _ _ _].
    assert (hu : oks (update_removal_loss3 (m_data (inc3 st)) (m_rl (inc3 st)))
      (fun rl => length rl = length (m_med (inc3 st)) /\ rl_near3 (m_data (inc3 st)) rl)).
    { apply update_removal_loss3_near; auto; [lia|]. rewrite i1. exact hl. }
    apply oks_inv in hu as (rl & -> & hrl & hrn). cbn [bind]. rewrite (len_n HM).
    eapply oks_bind with (P := best_near3 (m_med st) n).
    - apply foldM_seq with (I := best_near3 (m_med st)); [apply best3_0|].
      intros j best hj hb. apply fastmsc_cand_near with (k := k) (st := inc3 st); auto. congruence.
    - intros best hb. eapply oks_mono; [apply (swap_best3_near (k := k) rl ltac:(lia) hq1 hb)|].
      intros [s|s]; cbn [inc3 m_iter m_loss].
      + intros (q1 & q2 & q3 & q4). split; [auto|]. split; [rewrite q2, hrl; auto|]. auto.
      + auto.
  Qed.

  Lemma pms_near k maxiter (st : mst Nt f64) :
    (2 <= k)%nat -> q_all k st -> m_iter st = 0%nat ->
    oks (whileM maxiter (pms_iteration M) st) (fun s => ended3 k maxiter (m_loss st) (m_med s) (m_loss s) (m_iter s)).
  Proof.
    intros hk hq hit. apply steep3_near with (good := fun _ => True); auto.
    clear st hq hit. intros st hq _. unfold pms_iteration. fold (inc3 st).
    pose proof (inc3_all hq) as hq1. rewrite (len_n HM).
    eapply oks_bind with (P := best_near3 (m_med st) n).
    - apply foldM_seq with (I := best_near3 (m_med st)); [apply best3_0|].
      intros j best hj hb. apply pms_cand_near with (k := k) (st := inc3 st); auto.
    - intros best hb. eapply oks_mono; [apply (swap_best3_near (k := k) _ hk hq1 hb)|].
      intros [s|s]; cbn [inc3 m_iter m_loss].
      + intros (q1 & q2 & q3 & q4). auto.
      + auto.
  Qed.
End Msc.
