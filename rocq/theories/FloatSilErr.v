(** FloatSilErr.v -- the silhouette in binary64: the rounding error of the values and of their average *)
From Coq Require Import ZArith QArith Qpower Qminmax Lqa Lia.
From Coq.Floats Require Import SpecFloat.
From Verif Require Import Base Num M_Mat M_Util M_Silhouette Inst Hoare Spec SpecFacts Laws FloatFacts FloatExact FloatRound
  SortFacts SilFacts FloatSil.
Set Implicit Arguments.
Open Scope Q_scope.

(** [x] is [q] up to a relative error of t / 2^52 *)
Definition rel (t : nat) (q : Q) (x : f64) : Prop := f64_finite x /\ close (cnt t * 2 ^ (-52) * q) q x.

(** 0, or not so small that a quotient is rounded below the normal numbers *)
Definition not_tiny (q : Q) : Prop := q == 0 \/ 2 ^ (-900) <= q.

Lemma not_tiny_add a b : 0 <= a -> 0 <= b -> not_tiny a -> not_tiny b -> not_tiny (a + b).
Proof. intros h1 h2 [h3|h3] [h4|h4]; unfold not_tiny; [left; lra|right; lra..]. Qed.

Lemma not_tiny_sum A (f : A -> Q) l : (forall x, In x l -> 0 <= f x /\ not_tiny (f x)) -> not_tiny (sumQ f l).
Proof.
  induction l as [|x l IH]; intros h; [left; reflexivity|]. cbn [sumQ fold_right].
  apply not_tiny_add; [apply h; left; auto| |apply h; left; auto|apply IH; intros y hy; apply h; right; auto].
  apply sumQ_nonneg. intros y hy. apply h. right. auto.
Qed.

Lemma few_steps t : fits53 t -> 0 <= cnt t * 2 ^ (-52) /\ cnt t * 2 ^ (-52) <= 1.
Proof.
  intros h. pose proof (cnt_pos t). assert (hu : 0 < 2 ^ (-52)) by reflexivity.
  assert (h2 : cnt t <= 2 ^ 52). { unfold cnt. change (2 ^ 52) with (inject_Z (2 ^ 52)). rewrite <- Zle_Qle. exact h. }
  assert (e : 2 ^ 52 * 2 ^ (-52) == 1) by reflexivity.
  split; [apply Qmult_le_0_compat; lra|]. rewrite <- e. apply Qmult_le_compat_r; lra.
Qed.

Lemma rel_bounds t q x : fits53 t -> 0 <= q -> rel t q x -> 0 <= f64_val x /\ f64_val x <= 2 * q.
Proof.
  intros ht hq [_ [h1 h2]]. pose proof (few_steps ht) as [f1 f2].
  assert (cnt t * 2 ^ (-52) * q <= 1 * q) by (apply Qmult_le_compat_r; auto). lra.
Qed.

Lemma rel_add t q d x y : fits53 t -> 0 <= q -> 0 <= d -> rel t q x -> f64_finite y -> f64_val y == d ->
  f64_val x + f64_val y <= 2 ^ 1023 -> rel (S t) (q + d) (SFadd fprec femax x y).
Proof.
  intros ht hq hd hx hy e hB. destruct (rel_bounds ht hq hx) as [b1 b2]. destruct hx as [h0 [h1 h2]].
  pose proof (few_steps ht) as [f1 f2]. assert (hp : 0 < 2 ^ 1023) by reflexivity.
  assert (hr : rounds (f64_val x + f64_val y) (SFadd fprec femax x y)) by (apply add_rounds; auto; lra).
  split; [apply hr|]. pose proof (rounds_error hr (min_grid_add (finite_min_grid x h0) (finite_min_grid y hy))) as he.
  set (z := f64_val (SFadd fprec femax x y)) in *. set (s := f64_val x + f64_val y) in *.
  assert (hs : 0 <= s) by (unfold s; lra). assert (hu : 0 < 2 ^ (-53)) by reflexivity.
  assert (hu2 : 2 ^ (-52) == 2 * 2 ^ (-53)) by reflexivity.
  assert (h0' : 0 <= 2 ^ (-53) * s) by (apply Qmult_le_0_compat; lra).
  assert (e1 : - (2 ^ (-53) * s) <= z - s <= 2 ^ (-53) * s) by lra.
  assert (e2 : 2 ^ (-53) * s <= 2 ^ (-53) * (2 * (q + d))).
  { rewrite !(Qmult_comm (2 ^ (-53))). apply Qmult_le_compat_r; [unfold s; lra|lra]. }
  assert (e3 : cnt (S t) * 2 ^ (-52) * (q + d) == cnt t * 2 ^ (-52) * q + cnt t * 2 ^ (-52) * d + 2 ^ (-53) * (2 * (q + d))).
  { rewrite cnt_S, hu2. ring. }
  assert (e4 : 0 <= cnt t * 2 ^ (-52) * d) by (apply Qmult_le_0_compat; lra).
  unfold close. rewrite e3. fold z. unfold s in e1, e2, h0'. unfold s in *. lra.
Qed.

Lemma zero_div (a b : f64) : f64_finite a -> f64_finite b -> 0 < f64_val b -> f64_val a == 0 ->
  f64_finite (SFdiv fprec femax a b) /\ f64_val (SFdiv fprec femax a b) == 0.
Proof.
  intros h1 h2 h3 h4. assert (hp : 0 < 2 ^ 1023) by reflexivity.
  destruct (@div_within 0 0 a b h1 h2 h3 repr_0 repr_0) as (q1 & q2 & q3); try lra. split; [auto|lra].
Qed.

Lemma rel_div t q x m : fits53 (S t) -> (1 <= m)%nat -> fits53 m -> 0 <= q -> not_tiny q -> rel t q x -> f64_val x <= 2 ^ 1022 ->
  rel (S t) (q / cnt m) (SFdiv fprec femax x (f64_of_Z (Z.of_nat m))).
Proof.
  intros ht hm hf hq hq' hx hB. destruct (of_nat_val hf) as [c1 c2].
  assert (ht' : fits53 t) by (unfold fits53 in *; lia).
  destruct (rel_bounds ht' hq hx) as [b1 b2]. destruct hx as [h0 [h1 h2]]. pose proof (few_steps ht') as [f1 f2].
  pose proof (few_steps ht) as [f3 f4]. rewrite cnt_S in f4.
  assert (hm1 : 1 <= cnt m) by (change 1 with (cnt 1); apply cnt_le; auto).
  assert (hu : 0 < 2 ^ (-53)) by reflexivity. assert (hu2 : 2 ^ (-52) == 2 * 2 ^ (-53)) by reflexivity.
  assert (im : 0 < / cnt m) by (apply Qinv_lt_0_compat; lra).
  destruct hq' as [hz|hz].
  { assert (hx0 : f64_val x == 0) by (rewrite hz in b2; lra).
    destruct (@zero_div x (f64_of_Z (Z.of_nat m)) h0 c1 ltac:(lra) hx0) as [z1 z2]. split; [auto|].
    assert (e : q / cnt m == 0) by (rewrite hz; unfold Qdiv; ring). unfold close. rewrite z2, e. split; ring_simplify; lra. }
  set (w := f64_val x / f64_val (f64_of_Z (Z.of_nat m))).
  assert (ew : w == f64_val x / cnt m) by (unfold w; rewrite c2; reflexivity).
  assert (hw0 : 0 <= w) by (rewrite ew; apply Qle_shift_div_l; lra).
  assert (hwB : w <= 2 ^ 1022).
  { rewrite ew. apply Qle_shift_div_r; [lra|]. apply Qle_trans with (2 ^ 1022 * 1); [lra|].
    rewrite !(Qmult_comm (2 ^ 1022)). apply Qmult_le_compat_r; [auto|]. apply Qlt_le_weak. reflexivity. }
  assert (hx1 : 2 ^ (-52) * q <= f64_val x).
  { assert (g : (cnt t + 1) * 2 ^ (-52) * q <= 1 * q) by (apply Qmult_le_compat_r; auto).
    assert (e : (cnt t + 1) * 2 ^ (-52) * q == cnt t * 2 ^ (-52) * q + 2 ^ (-52) * q) by ring. lra. }
  assert (hx2 : 2 ^ (-952) <= f64_val x).
  { apply Qle_trans with (2 ^ (-52) * q); [|exact hx1]. apply Qle_trans with (2 ^ (-52) * 2 ^ (-900)).
    - apply Qle_lteq. right. reflexivity.
    - rewrite !(Qmult_comm (2 ^ (-52))). apply Qmult_le_compat_r; [auto|]. apply Qlt_le_weak. reflexivity. }
  assert (hm2 : cnt m <= 2 ^ 52). { unfold cnt. change (2 ^ 52) with (inject_Z (2 ^ 52)). rewrite <- Zle_Qle. exact hf. }
  assert (hw1 : 2 ^ (-1022) <= w).
  { rewrite ew. apply Qle_shift_div_l; [lra|]. apply Qle_trans with (2 ^ (-1022) * 2 ^ 52).
    - rewrite !(Qmult_comm (2 ^ (-1022))). apply Qmult_le_compat_r; [auto|]. apply Qlt_le_weak. reflexivity.
    - apply Qle_trans with (2 ^ (-952)); [|exact hx2]. apply Qlt_le_weak. reflexivity. }
  pose proof big2 as hB2. assert (hp : 0 < 2 ^ 1022) by reflexivity.
  assert (hr : rounds w (SFdiv fprec femax x (f64_of_Z (Z.of_nat m)))) by (apply div_rounds; auto; fold w; lra).
  assert (he := rounds_abs (B := w) hr ltac:(lra) ltac:(lra) hw1).
  split; [apply hr|]. set (z := f64_val (SFdiv _ _ _ _)) in *.
  assert (w1 : w - q / cnt m <= cnt t * 2 ^ (-52) * q * / cnt m /\ - (cnt t * 2 ^ (-52) * q * / cnt m) <= w - q / cnt m).
  { assert (E : w - q / cnt m == (f64_val x - q) * / cnt m) by (rewrite ew; unfold Qdiv; ring).
    assert (u1 : (f64_val x - q) * / cnt m <= (cnt t * 2 ^ (-52) * q) * / cnt m) by (apply Qmult_le_compat_r; lra).
    assert (u2 : (- (cnt t * 2 ^ (-52) * q)) * / cnt m <= (f64_val x - q) * / cnt m) by (apply Qmult_le_compat_r; lra).
    lra. }
  assert (w2 : w <= 2 * (q / cnt m)).
  { rewrite ew. unfold Qdiv. setoid_replace (2 * (q * / cnt m)) with ((2 * q) * / cnt m) by ring. apply Qmult_le_compat_r; lra. }
  assert (w3 : 2 ^ (-53) * w <= 2 ^ (-52) * (q / cnt m)).
  { rewrite hu2. apply Qle_trans with (2 ^ (-53) * (2 * (q / cnt m))).
    - rewrite !(Qmult_comm (2 ^ (-53))). apply Qmult_le_compat_r; [auto|lra].
    - lra. }
  assert (e : cnt (S t) * 2 ^ (-52) * (q / cnt m) == cnt t * 2 ^ (-52) * q * / cnt m + 2 ^ (-52) * (q / cnt m)).
  { rewrite cnt_S. unfold Qdiv. ring. }
  unfold close. rewrite e. fold z. lra.
Qed.

Lemma rel_mono t t' q x : (t <= t')%nat -> 0 <= q -> rel t q x -> rel t' q x.
Proof.
  intros h hq [h1 h2]. split; [auto|]. eapply close_le; [|exact h2]. apply Qmult_le_compat_r; [|auto].
  apply Qmult_le_compat_r; [apply cnt_le; auto|]. discriminate.
Qed.

(** the smallest of several numbers *)
Lemma rel_min t (xs : list f64) (qs : list Q) x q : fits53 t ->
  rel t q x -> 0 <= q -> Forall2 (fun q x => 0 <= q /\ rel t q x) qs xs ->
  rel t (minQ (q :: qs)) (fold_left (fun x y => if lltb y x then y else x) xs x).
Proof.
  intros ht hx hq hl. revert q x hx hq. induction hl as [|q' x' qs xs [hq' hx'] hl IH]; intros q x hx hq; [exact hx|].
  cbn [fold_left].
  assert (hm : rel t (Qmin q q') (if lltb x' x then x' else x) /\ 0 <= Qmin q q').
  { destruct (few_steps ht) as [f1 f2]. split; [|apply Q.min_glb; auto]. pose proof (proj1 hx) as g1. pose proof (proj1 hx') as g2.
    assert (M : forall a b, a <= b -> cnt t * 2 ^ (-52) * a <= cnt t * 2 ^ (-52) * b).
    { intros a b hab. rewrite !(Qmult_comm (cnt t * 2 ^ (-52))). apply Qmult_le_compat_r; auto. }
    assert (L : forall a b, a <= b -> a - cnt t * 2 ^ (-52) * a <= b - cnt t * 2 ^ (-52) * b).
    { intros a b hab. assert (cnt t * 2 ^ (-52) * (b - a) <= 1 * (b - a)) by (apply Qmult_le_compat_r; lra). lra. }
    destruct hx as [_ [c1 c2]]. destruct hx' as [_ [d1 d2]].
    cbn [lltb NumL_f64]. destruct (SFltb x' x) eqn:e.
    - apply SFltb_val in e; auto. split; [auto|]. unfold close. destruct (Q.min_spec q q') as [[q1 ->]|[q1 ->]]; [|lra].
      specialize (M q q' ltac:(lra)). specialize (L q q' ltac:(lra)). lra.
    - assert (hle : f64_val x <= f64_val x').
      { apply Qnot_lt_le. intros c. apply SFltb_val in c; auto. congruence. }
      split; [auto|]. unfold close. destruct (Q.min_spec q q') as [[q1 ->]|[q1 ->]]; [lra|].
      specialize (M q' q q1). specialize (L q' q q1). lra. }
  destruct hm as [hm hm0]. specialize (IH _ _ hm hm0).
  assert (e : minQ (q :: q' :: qs) == minQ (Qmin q q' :: qs)).
  { change (minQ (q :: q' :: qs)) with (Qmin q (minQ (q' :: qs))). destruct qs as [|q'' qs]; [reflexivity|].
    change (minQ (q' :: q'' :: qs)) with (Qmin q' (minQ (q'' :: qs))).
    change (minQ (Qmin q q' :: q'' :: qs)) with (Qmin (Qmin q q') (minQ (q'' :: qs))). apply Q.min_assoc. }
  destruct IH as [i1 i2]. split; [auto|]. eapply close_ext; [| |exact i2]; rewrite e; reflexivity.
Qed.

(** ** the value of one object *)
Lemma sil_value_near t (a b : Q) (xa xb : f64) : 0 <= a -> 0 <= b -> fits53 (4 * t) -> rel t a xa -> rel t b xb ->
  f64_val xa <= 2 ^ 1022 -> f64_val xb <= 2 ^ 1022 ->
  close ((4 * cnt t + 1) * 2 ^ (-52)) ((b - a) / Qmax a b)
    (checked_div (SFsub fprec femax xb xa) (if lltb xb xa then xa else xb)).
Proof.
  intros ha hb ht4 hxa hxb Ba Bb. assert (ht : fits53 t) by (unfold fits53 in *; lia).
  destruct (rel_bounds ht ha hxa) as [a1 a2]. destruct (rel_bounds ht hb hxb) as [b1 b2].
  pose proof (proj1 hxa) as fa. pose proof (proj1 hxb) as fb.
  destruct (few_steps ht4) as [_ f4].
  assert (e4 : cnt (4 * t) == 4 * cnt t) by (unfold cnt; rewrite Nat2Z.inj_mul, inject_Z_mult; reflexivity).
  rewrite e4 in f4. clear e4. pose proof (cnt_pos t) as pt.
  set (r := cnt t * 2 ^ (-52)) in *. assert (hr0 : 0 <= r) by (unfold r; apply few_steps; auto).
  assert (hr4 : 4 * r <= 1) by (unfold r; lra).
  destruct hxa as [_ [c1 c2]]. destruct hxb as [_ [d1 d2]]. fold r in c1, c2, d1, d2.
  set (xm := if lltb xb xa then xa else xb). match goal with |- close _ _ (checked_div _ ?X) => change X with xm end.
  set (m := Qmax a b).
  assert (hm1 : a <= m) by apply Q.le_max_l. assert (hm2 : b <= m) by apply Q.le_max_r. assert (hm0 : 0 <= m) by lra.
  assert (ra : r * a <= r * m) by (rewrite !(Qmult_comm r); apply Qmult_le_compat_r; auto).
  assert (rb : r * b <= r * m) by (rewrite !(Qmult_comm r); apply Qmult_le_compat_r; auto).
  assert (hxm : f64_finite xm /\ f64_val xa <= f64_val xm /\ f64_val xb <= f64_val xm /\ f64_val xm <= 2 ^ 1022 /\
    - (r * m) <= f64_val xm - m /\ f64_val xm - m <= r * m).
  { assert (hmm : m == a \/ m == b) by (unfold m; destruct (Q.max_spec a b) as [[_ ->]|[_ ->]]; auto with qarith).
    unfold xm. cbn [lltb NumL_f64]. destruct (SFltb xb xa) eqn:e.
    - apply SFltb_val in e; auto. split; [auto|]. split; [lra|]. split; [lra|]. split; [auto|]. split; [|lra].
      destruct hmm as [hmm|hmm]; [rewrite hmm in *; lra|]. rewrite hmm in *. lra.
    - assert (hle : f64_val xa <= f64_val xb).
      { apply Qnot_lt_le. intros c. apply SFltb_val in c; auto. congruence. }
      split; [auto|]. split; [lra|]. split; [lra|]. split; [auto|]. split; [|lra].
      destruct hmm as [hmm|hmm]; [rewrite hmm in *; lra|]. rewrite hmm in *. lra. }
  destruct hxm as (m1 & m2 & m3 & m4 & m5 & m6). clearbody xm.
  assert (hp : 0 < 2 ^ 1022) by reflexivity. pose proof big2 as hB.
  assert (hu : 0 < 2 ^ (-53)) by reflexivity. assert (hu2 : 2 ^ (-52) == 2 * 2 ^ (-53)) by reflexivity.
  assert (E : (4 * cnt t + 1) * 2 ^ (-52) == 4 * r + 2 * 2 ^ (-53)) by (unfold r; rewrite hu2; ring).
  assert (rm4 : 4 * (r * m) <= m) by (assert (4 * r * m <= 1 * m) by (apply Qmult_le_compat_r; auto); lra).
  unfold checked_div. cbn [lltb lzero ldiv NumL_f64].
  destruct (Qlt_le_dec 0 m) as [hm|hm].
  - assert (hxp : 0 < f64_val xm) by lra.
    assert (el : SFltb (S754_zero false) xm = true) by (apply SFltb_val; [exact I|auto|exact hxp]). rewrite el.
    set (s := (b - a) / m). assert (es : b - a == s * m) by (unfold s; field; lra).
    assert (hs : - (1) <= s /\ s <= 1) by (unfold s; split; [apply Qle_shift_div_l|apply Qle_shift_div_r]; lra).
    assert (hsub : rounds (f64_val xb - f64_val xa) (SFsub fprec femax xb xa)) by (apply sub_rounds; auto; lra).
    set (xd := SFsub fprec femax xb xa) in *. set (d := f64_val xb - f64_val xa) in *.
    assert (dg : on_min_grid d).
    { unfold d. destruct (finite_min_grid xa fa) as (z1 & g1). destruct (finite_min_grid xb fb) as (z2 & g2).
      exists (z2 - z1)%Z. rewrite g1, g2. unfold Z.sub. rewrite inject_Z_plus, inject_Z_opp. ring. }
    pose proof (rounds_error hsub dg) as he.
    assert (hd : - (2 ^ (-53) * f64_val xm) <= f64_val xd - d /\ f64_val xd - d <= 2 ^ (-53) * f64_val xm).
    { assert (k1 : 2 ^ (-53) * d <= 2 ^ (-53) * f64_val xm).
      { rewrite !(Qmult_comm (2 ^ (-53))). apply Qmult_le_compat_r; [unfold d; lra|lra]. }
      assert (k2 : 2 ^ (-53) * (- d) <= 2 ^ (-53) * f64_val xm).
      { rewrite !(Qmult_comm (2 ^ (-53))). apply Qmult_le_compat_r; [unfold d; lra|lra]. }
      lra. }
    (* the difference, against s times the maximum *)
    assert (hsm : - (r * m) <= s * (m - f64_val xm) /\ s * (m - f64_val xm) <= r * m).
    { assert (G : forall p q B, - (1) <= p -> p <= 1 -> - B <= q -> q <= B -> - B <= p * q /\ p * q <= B).
      { intros p q B p1 p2 q1 q2. destruct (Qlt_le_dec p 0); destruct (Qlt_le_dec q 0); split; nra. }
      apply G; lra. }
    assert (k3 : d - s * f64_val xm == (f64_val xb - b) - (f64_val xa - a) + s * (m - f64_val xm)).
    { unfold d. assert (e : s * (m - f64_val xm) == s * m - s * f64_val xm) by ring. rewrite e, <- es. ring. }
    assert (k4 : 3 * (r * m) <= 4 * r * f64_val xm).
    { assert (g : 4 * r * ((3 # 4) * m) <= 4 * r * f64_val xm).
      { rewrite !(Qmult_comm (4 * r)). apply Qmult_le_compat_r; lra. }
      lra. }
    assert (k5 : - (4 * r * f64_val xm) <= d - s * f64_val xm /\ d - s * f64_val xm <= 4 * r * f64_val xm) by lra.
    (* the quotient *)
    set (q := f64_val xd / f64_val xm).
    assert (eq : f64_val xd == q * f64_val xm) by (unfold q; field; lra).
    assert (hq : - (4 * r + 2 ^ (-53)) <= q - s /\ q - s <= 4 * r + 2 ^ (-53)).
    { assert (g1 : (q - s) * f64_val xm <= (4 * r + 2 ^ (-53)) * f64_val xm) by lra.
      assert (g2 : (- (4 * r + 2 ^ (-53))) * f64_val xm <= (q - s) * f64_val xm) by lra.
      apply Qmult_le_r in g1; [|auto]. apply Qmult_le_r in g2; [|auto]. lra. }
    assert (hlo : - f64_val xa <= f64_val xd).
    { rewrite <- val_opp. apply rounds_ge with (1 := hsub); [apply finite_opp; exact fa|]. rewrite val_opp. unfold d. lra. }
    assert (hhi : f64_val xd <= f64_val xb).
    { apply rounds_le with (1 := hsub); [exact fb|]. unfold d. lra. }
    assert (hq1 : - (1) <= q /\ q <= 1) by (unfold q; split; [apply Qle_shift_div_l|apply Qle_shift_div_r]; lra).
    assert (hp' : 1 <= 2 ^ 1023) by (apply Qlt_le_weak; reflexivity).
    assert (hdiv : rounds q (SFdiv fprec femax xd xm)) by (apply div_rounds; [apply hsub|auto|lra|fold q; lra|fold q; lra]).
    assert (hz := rounds_abs (B := 1) hdiv ltac:(lra) ltac:(lra) ltac:(apply Qlt_le_weak; reflexivity)).
    unfold close. fold s. rewrite E. lra.
  - (* everything is 0 *)
    assert (hz : m == 0) by lra. assert (hx0 : f64_val xm == 0) by (rewrite hz in *; lra).
    replace (SFltb (S754_zero false) xm) with false.
    + assert (e : (b - a) / m == 0) by (rewrite hz; unfold Qdiv; change (/ 0) with 0; ring).
      unfold close. rewrite e, E. cbn [f64_val]. lra.
    + symmetry. destruct (SFltb (S754_zero false) xm) eqn:el; [|reflexivity].
      apply SFltb_val in el; [|exact I|auto]. cbn [f64_val] in el. lra.
Qed.

(** ** [silhouette] *)
Section Sil.
  Context {Nt : Type} `{HO : OrdLaws Nt} `{HFN : FromN Nt f64}.
  Variable M : Mat Nt.
  Variable n : nat.
  Variable D : nat -> nat -> Nt.
  Hypothesis HD : nonneg_matrix M n D.
  Hypothesis HE : exact_from n D.
  Hypothesis HB : forall x y, (x < n)%nat -> (y < n)%nat -> vals D x y <= 2 ^ big_g.
  Hypothesis HT : forall x y, (x < n)%nat -> (y < n)%nat -> not_tiny (vals D x y).
  Hypothesis Hn32 : (N.of_nat n <= 4294967295)%N.
  Notation v := (vals D).
  Let HM : is_matrix M n D := proj1 HD.

  Lemma sv_pos x y : (x < n)%nat -> (y < n)%nat -> 0 <= v x y.
  Proof. intros hx hy. apply HD; auto. Qed.

  Lemma fits_few t : (t <= 4 * n + 16)%nat -> fits53 t.
  Proof. intros h. unfold fits53. lia. Qed.

  Lemma sum_le i l : (i < n)%nat -> (length l <= n)%nat -> (forall j, In j l -> (j < n)%nat) ->
    0 <= sumQ (v i) l /\ sumQ (v i) l <= 2 ^ 1003.
  Proof.
    intros hi hl hj. split; [apply sumQ_nonneg; intros j h; apply sv_pos; auto|].
    assert (h : sumQ (v i) l <= cnt (length l) * 2 ^ big_g).
    { clear hl. induction l as [|j l IH]; [cbn [sumQ fold_right length]; change (cnt 0) with 0; lra|].
      cbn [sumQ fold_right length]. rewrite cnt_S. specialize (IH ltac:(intros; apply hj; right; auto)).
      specialize (HB hi (hj j (or_introl eq_refl))). unfold sumQ in IH. lra. }
    apply Qle_trans with (1 := h). apply Qle_trans with (2 ^ 33 * 2 ^ big_g).
    - apply Qmult_le_compat_r; [|apply Qlt_le_weak; reflexivity]. unfold cnt. change (2 ^ 33) with (inject_Z (2 ^ 33)). rewrite <- Zle_Qle. lia.
    - apply Qle_lteq. right. reflexivity.
  Qed.

  Definition entry_near (i : nat) (l : list nat) (p : nat * f64) : Prop :=
    fst p = length l /\ rel (length l) (sumQ (v i) l) (snd p).

  Lemma others_to_lt assi i c t : (forall j, In j (others_to assi i c t) -> (j < t)%nat) /\ (length (others_to assi i c t) <= t)%nat.
  Proof.
    split.
    - intros j h. apply filter_In in h as [h _]. apply in_seq in h. lia.
    - unfold others_to. rewrite <- (seq_length t 0) at 2. set (f := fun j => _). generalize (seq 0 t). intros l.
      induction l as [|y l IH]; [auto|]. cbn [filter length]. destruct (f y); cbn [length]; lia.
  Qed.

  Lemma sil_buf_near assi i : (length assi <= n)%nat -> (i < n)%nat ->
    oks (sil_buf (Lt := f64) M assi i) (fun buf => length buf = width assi /\
      forall c, entry_near i (others assi i c) (nth c buf (0%nat, lzero))).
  Proof.
    intros hl hi.
    assert (h : oks (sil_buf (Lt := f64) M assi i) (fun buf =>
       forall c, entry_near i (others_to assi i c (length assi)) (nth c buf (0%nat, lzero)))).
    { unfold sil_buf. apply foldM_enum with (I := fun t (buf : list (nat * f64)) =>
        forall c, entry_near i (others_to assi i c t) (nth c buf (0%nat, lzero))).
      - intros c. split; [destruct c; reflexivity|]. cbn [others_to seq filter length sumQ fold_right].
        assert (e : snd (nth c (@nil (nat * f64)) (0%nat, lzero)) = S754_zero false) by (destruct c; reflexivity).
        rewrite e. split; [exact I|]. unfold close. cbn [f64_val]. change (cnt 0) with 0. split; ring_simplify; lra.
      - intros j a buf e hb. apply nth_error_lt in e as hj. apply nth_error_nth with (d := 0%nat) in e as ea.
        assert (hoth : forall c, others_to assi i c (S j) =
            others_to assi i c j ++ (if (negb (j =? i) && (a =? c))%nat then [j] else [])).
        { intros c. unfold others_to. rewrite seq_S, filter_app. simpl. rewrite ea.
          destruct (negb (j =? i)%nat && (a =? c)%nat); auto. }
        cbv zeta. rewrite (Nat.eqb_sym i j). destruct (Nat.eqb j i) eqn:ej; cbn [negb].
        + cbn [oks]. intros c. rewrite hoth. cbn [negb andb]. rewrite app_nil_r. rewrite nth_grow. apply hb.
        + rewrite (@idx_nth _ _ _ (0%nat, lzero)) by (rewrite length_grow; lia). cbn [bind].
          rewrite (proj2 (proj2 HM)) by lia. cbn [bind].
          rewrite upd_ok by (rewrite length_grow; lia). cbn [oks]. intros c. rewrite hoth.
          rewrite nth_set_nth by (rewrite length_grow; lia). rewrite !nth_grow.
          cbn [negb andb]. rewrite (Nat.eqb_sym c a). destruct (Nat.eqb a c) eqn:ec.
          * apply Nat.eqb_eq in ec as <-. destruct (hb a) as [q1 q2].
            destruct (others_to_lt assi i a j) as [o1 o2].
            destruct (@sum_le i (others_to assi i a j) hi ltac:(lia)) as [s1 s2]; [intros y hy; specialize (o1 _ hy); lia|].
            assert (hf : fits53 (length (others_to assi i a j))) by (apply fits_few; lia).
            destruct (rel_bounds hf s1 q2) as [r1 r2].
            assert (hjn : (j < n)%nat) by lia. destruct (HE hi hjn) as [e1 e2].
            pose proof (HB hi hjn) as hbb. pose proof (sv_pos hi hjn) as hp.
            split; cbn [fst snd].
            -- rewrite app_length, q1. simpl. lia.
            -- rewrite app_length, Nat.add_1_r. set (lo := others_to assi i a j) in *.
               assert (es : sumQ (v i) (lo ++ [j]) == sumQ (v i) lo + v i j).
               { rewrite sumQ_app. cbn [sumQ fold_right]. lra. }
               assert (hr : rel (S (length lo)) (sumQ (v i) lo + v i j)
                        (SFadd fprec femax (snd (nth a buf (0%nat, lzero))) (lfrom (D i j)))).
               { apply rel_add; auto. rewrite e2.
                 assert (g1 : 2 * 2 ^ 1003 + 2 ^ big_g <= 2 ^ 1023) by (apply Qlt_le_weak; reflexivity).
                 lra. }
               destruct hr as [h1 h2]. split; [exact h1|]. eapply close_ext; [| |exact h2]; rewrite es; reflexivity.
          * rewrite app_nil_r. apply hb. }
    apply oks_inv in h as (buf & e & h). rewrite e. cbn [oks]. split; [eapply sil_buf_len; eauto|exact h].
  Qed.

  Definition buf_near (assi : list nat) (i : nat) (buf : list (nat * f64)) : Prop :=
    length buf = width assi /\ forall c, entry_near i (others assi i c) (nth c buf (0%nat, lzero)).

  Lemma others_small assi i c : (length assi <= n)%nat ->
    (forall j, In j (others assi i c) -> (j < n)%nat) /\ (length (others assi i c) <= n)%nat.
  Proof.
    intros hl. destruct (others_to_lt assi i c (length assi)) as [h1 h2]. change (others assi i c) with (others_to assi i c (length assi)).
    split; [intros j h; specialize (h1 j h); lia|lia].
  Qed.

  (** the means *)
  Lemma mean_near i l p : (i < n)%nat -> (length l <= n)%nat -> (forall j, In j l -> (j < n)%nat) -> entry_near i l p ->
    rel (S n) (mean_diss v i l) (buf_mean p) /\ 0 <= mean_diss v i l /\ f64_val (buf_mean p) <= 2 ^ 1022.
  Proof.
    intros hi hl hj [h1 h2]. destruct (sum_le l hi hl hj) as [s1 s2].
    assert (hp : 0 <= mean_diss v i l) by (apply (mean_diss_pos HD); auto).
    unfold buf_mean, checked_div. cbn [lfrom_u32 lltb lzero ldiv NumL_f64]. rewrite nat_N_Z, h1.
    assert (hf : fits53 (length l)) by (apply fits_few; lia).
    assert (hf2 : fits53 (S (length l))) by (apply fits_few; lia).
    destruct (of_nat_val hf) as [c1 c2]. destruct (rel_bounds hf s1 h2) as [r1 r2].
    destruct l as [|j l'] eqn:el.
    - replace (SFltb (S754_zero false) (f64_of_Z (Z.of_nat (length (@nil nat))))) with false by reflexivity.
      assert (e : mean_diss v i [] == 0) by (unfold mean_diss; cbn [sumQ fold_right]; unfold Qdiv; ring).
      split; [|split; [lra|apply Qlt_le_weak; reflexivity]]. split; [exact I|]. unfold close. rewrite e. cbn [f64_val].
      split; ring_simplify; lra.
    - rewrite <- el in *. assert (hm : (1 <= length l)%nat) by (rewrite el; simpl; lia).
      assert (hm1 : 1 <= cnt (length l)) by (change 1 with (cnt 1); apply cnt_le; auto).
      replace (SFltb (S754_zero false) (f64_of_Z (Z.of_nat (length l)))) with true.
      2:{ symmetry. apply SFltb_val; [exact I|auto|]. cbn [f64_val]. lra. }
      assert (hr : rel (S (length l)) (sumQ (v i) l / cnt (length l)) (SFdiv fprec femax (snd p) (f64_of_Z (Z.of_nat (length l))))).
      { apply rel_div; auto.
        - apply not_tiny_sum. intros y hy. split; [apply sv_pos; auto|apply HT; auto].
        - assert (2 * 2 ^ 1003 <= 2 ^ 1022) by (apply Qlt_le_weak; reflexivity). lra. }
      assert (em : mean_diss v i l == sumQ (v i) l / cnt (length l)) by reflexivity.
      assert (hpm : 0 <= sumQ (v i) l / cnt (length l)) by (rewrite <- em; exact hp).
      destruct (rel_bounds hf2 hpm hr) as [b1 b2].
      split; [|split; [exact hp|]].
      + apply rel_mono with (S (length l)); [lia|auto|exact hr].
      + assert (hle : sumQ (v i) l / cnt (length l) <= 2 ^ 1003).
        { apply Qle_shift_div_r; [lra|]. apply Qle_trans with (2 ^ 1003 * 1); [lra|]. rewrite !(Qmult_comm (2 ^ 1003)).
          apply Qmult_le_compat_r; [auto|]. apply Qlt_le_weak. reflexivity. }
        assert (2 * 2 ^ 1003 <= 2 ^ 1022) by (apply Qlt_le_weak; reflexivity). lra.
  Qed.

  Lemma buf_b_near assi i ai buf : (length assi <= n)%nat -> (i < n)%nat -> buf_near assi i buf ->
    rel (S n) (code_b D assi i ai) (buf_b buf ai) /\ 0 <= code_b D assi i ai /\ f64_val (buf_b buf ai) <= 2 ^ 1022.
  Proof.
    intros hl hi [hb1 hb]. pose proof (code_b_pos HD assi ai hl hi) as hp.
    assert (hx : forall c, rel (S n) (mean_diss v i (others assi i c)) (buf_mean (nth (c - 0) buf (0%nat, lzero))) /\
      0 <= mean_diss v i (others assi i c) /\ f64_val (buf_mean (nth (c - 0) buf (0%nat, lzero))) <= 2 ^ 1022).
    { intros c. rewrite Nat.sub_0_r. destruct (@others_small assi i c hl) as [o1 o2]. apply mean_near; auto. }
    split; [|split; [exact hp|]].
    - unfold buf_b, code_b, enum. rewrite (@filter_enum _ (fun c => negb (c =? ai)%nat) buf 0 (0%nat, lzero)), hb1.
      set (cs := filter (fun c => negb (c =? ai)%nat) (seq 0 (width assi))).
      rewrite map_map. destruct cs as [|c cs]; cbn [map].
      { split; [exact I|]. unfold close. cbn [minQ lzero NumL_f64 f64_val]. split; ring_simplify; lra. }
      apply rel_min; [apply fits_few; lia|apply hx|apply hx|].
      clear hp. induction cs as [|c' cs IH]; cbn [map]; constructor; [split; apply hx|exact IH].
    - unfold buf_b. set (l := map _ _).
      assert (hl' : forall y, In y l -> f64_val y <= 2 ^ 1022).
      { intros y hy. unfold l in hy. apply in_map_iff in hy as ((j & q) & <- & hq). apply filter_In in hq as [hq _].
        unfold enum in hq. apply in_combine_r in hq. apply (In_nth _ _ (0%nat, lzero)) in hq as (c & hc & <-).
        rewrite <- (Nat.sub_0_r c). apply hx. }
      destruct l as [|t ts]; [apply Qlt_le_weak; reflexivity|].
      assert (G : forall ts t, (forall y, In y (t :: ts) -> f64_val y <= 2 ^ 1022) ->
        f64_val (fold_left (fun x y => if lltb y x then y else x) ts t) <= 2 ^ 1022).
      { clear. induction ts as [|y ts IH]; intros t h; [apply h; left; auto|]. cbn [fold_left]. apply IH.
        intros z [<-|hz]; [|apply h; right; right; auto]. destruct (lltb y t); apply h; [right; left|left]; auto. }
      apply G. exact hl'.
  Qed.

  Definition obj_err : Q := (4 * cnt n + 5) * 2 ^ (-52).

  Lemma sil_of_buf_near assi i ai buf : (length assi <= n)%nat -> nth_error assi i = Some ai -> buf_near assi i buf ->
    oks (sil_of_buf buf ai) (fun s => f64_finite s /\ close obj_err (code_sil D assi i ai) s).
  Proof.
    intros hl e hb. unfold sil_of_buf. pose proof hb as [hb1 hb2]. apply nth_error_lt in e as hi. assert (hin : (i < n)%nat) by lia.
    rewrite (@idx_nth _ _ _ (0%nat, lzero)) by (rewrite hb1; apply width_ge; eapply nth_error_In; eauto).
    cbn [bind]. pose proof (hb2 ai) as ha. destruct ha as [q1 _]. rewrite q1. unfold code_sil.
    destruct (@others_small assi i ai hl) as [o1 o2].
    destruct (mean_near hin o2 o1 (hb2 ai)) as (a1 & a2 & a3).
    destruct (buf_b_near ai hl hin hb) as (b1 & b2 & b3). fold (buf_b buf ai).
    pose proof (cnt_pos n) as pn. assert (hu : 0 < 2 ^ (-52)) by reflexivity.
    destruct (others assi i ai) as [|o os] eqn:eo; cbn [length].
    - simpl. split; [exact I|]. unfold close, obj_err. cbn [f64_val].
      assert (0 <= (4 * cnt n + 5) * 2 ^ (-52)) by (apply Qmult_le_0_compat; lra). lra.
    - replace (0 <? S (length os))%nat with true by (symmetry; apply Nat.ltb_lt; lia). cbv zeta. cbn [oks].
      assert (hf : fits53 (4 * S n)) by (apply fits_few; lia).
      pose proof (sil_value_near a2 b2 hf a1 b1 a3 b3) as hc. split.
      + assert (hf1 : fits53 (S n)) by (apply fits_few; lia). pose proof (rel_bounds hf1 a2 a1) as [a4 _].
        pose proof (rel_bounds hf1 b2 b1) as [b4 _].
        destruct a1 as [a1 _]. destruct b1 as [b1 _].
        pose proof big2 as hB. assert (hp : 0 < 2 ^ 1022) by reflexivity.
        pose proof (@sub_rounds (buf_b buf ai) (buf_mean (nth ai buf (0%nat, lzero))) b1 a1 ltac:(lra) ltac:(lra)) as hs.
        unfold checked_div. cbn [lltb lzero lsub ldiv NumL_f64].
        set (xa := buf_mean _) in *. set (xb := buf_b buf ai) in *. clearbody xa xb.
        assert (hlo : - f64_val xa <= f64_val (SFsub fprec femax xb xa)).
        { rewrite <- val_opp. apply rounds_ge with (1 := hs); [apply finite_opp; exact a1|]. rewrite val_opp. lra. }
        assert (hhi : f64_val (SFsub fprec femax xb xa) <= f64_val xb).
        { apply rounds_le with (1 := hs); [exact b1|]. lra. }
        assert (hm : forall m, (m = xa \/ m = xb) -> f64_val xa <= f64_val m -> f64_val xb <= f64_val m ->
          f64_finite (if SFltb (S754_zero false) m then SFdiv fprec femax (SFsub fprec femax xb xa) m else S754_zero false)).
        { intros m hm h1 h2. assert (hfm : f64_finite m) by (destruct hm as [->| ->]; auto).
          destruct (SFltb (S754_zero false) m) eqn:el; [|exact I]. apply SFltb_val in el; [|exact I|auto]. cbn [f64_val] in el.
          assert (p1 : 1 <= 2 ^ 1023) by (apply Qlt_le_weak; reflexivity).
          assert (q2 : - (1) <= f64_val (SFsub fprec femax xb xa) / f64_val m) by (apply Qle_shift_div_l; lra).
          assert (q3 : f64_val (SFsub fprec femax xb xa) / f64_val m <= 1) by (apply Qle_shift_div_r; lra).
          apply (@div_rounds (SFsub fprec femax xb xa) m); [apply hs|auto|lra|lra|lra]. }
        destruct (SFltb xb xa) eqn:el.
        * apply SFltb_val in el; auto. apply hm; auto; lra.
        * apply hm; auto; [|lra]. apply Qnot_lt_le. intros c. apply SFltb_val in c; auto. congruence.
      + eapply close_ext; [| |exact hc]; [|reflexivity]. unfold obj_err. rewrite cnt_S. ring.
  Qed.

  Lemma sil_values_near assi : (length assi <= n)%nat ->
    oks (mapM (sil_value (Lt := f64) M assi) (enum assi)) (fun ss => length ss = length assi /\
      forall i, (i < length assi)%nat -> f64_finite (nth i ss lzero) /\ close obj_err (code_sil D assi i (nth i assi 0%nat)) (nth i ss lzero)).
  Proof.
    intros hl. eapply oks_mono.
    - apply mapM_enum with (R := fun i a s => f64_finite s /\ close obj_err (code_sil D assi i a) s).
      intros i a e. unfold sil_value. cbn [fst snd]. apply nth_error_lt in e as hi.
      eapply oks_bind; [apply sil_buf_near; auto; lia|]. intros buf hb. apply sil_of_buf_near; auto.
    - intros ss [h1 h2]. split; [auto|]. intros i hi.
      destruct (nth_error_ex ss (i := i) ltac:(lia)) as [s es].
      destruct (nth_error_ex assi hi) as [a ea].
      rewrite (nth_error_nth _ _ lzero es), (nth_error_nth _ _ 0%nat ea). eapply h2; eauto.
  Qed.

  Lemma entries_within x y : (x < n)%nat -> (y < n)%nat -> within 0 (2 ^ big_g) (lfrom (D x y)).
  Proof. intros hx hy. destruct (HE hx hy) as [e1 e2]. split; [exact e1|]. rewrite e2. split; [apply sv_pos; auto|apply HB; auto]. Qed.

  (** the sum *)
  Lemma sil_sum_near (ss : list f64) (f : nat -> Q) : (length ss <= n)%nat ->
    (forall s, In s ss -> within (- (1)) 1 s) ->
    (forall i, (i < length ss)%nat -> close obj_err (f i) (nth i ss lzero)) ->
    close (cnt (length ss) * (obj_err + cnt n * 2 ^ (-53))) (sumQ f (seq 0 (length ss))) (fold_left ladd ss lzero).
  Proof.
    intros hn hs hf.
    assert (G : forall pre post a, ss = pre ++ post -> within (- cnt (length pre)) (cnt (length pre)) a ->
      close (cnt (length pre) * (obj_err + cnt n * 2 ^ (-53))) (sumQ f (seq 0 (length pre))) a ->
      close (cnt (length ss) * (obj_err + cnt n * 2 ^ (-53))) (sumQ f (seq 0 (length ss))) (fold_left ladd post a)).
    { intros pre post. revert pre. induction post as [|s post IH]; intros pre a e hw hc; cbn [fold_left].
      - rewrite app_nil_r in e. subst pre. exact hc.
      - assert (el : length ss = (length pre + S (length post))%nat) by (rewrite e, app_length; reflexivity).
        assert (hin : In s ss) by (rewrite e; apply in_or_app; right; left; auto).
        pose proof (hs s hin) as hws.
        assert (hfs : fits53 (S (length pre))) by (apply fits_few; lia).
        assert (hw0 : within (- cnt (S (length pre)) * 2 ^ 0) (cnt (S (length pre)) * 2 ^ 0) (SFadd fprec femax a s)).
        { apply add_within_sym; auto; [lia|]. eapply within_ext; [| |exact hw]; change (2 ^ 0) with 1; ring. }
        assert (E : length (pre ++ [s]) = S (length pre)) by (rewrite app_length; simpl; lia).
        apply IH with (pre := pre ++ [s]).
        + rewrite e, <- app_assoc. reflexivity.
        + rewrite E. eapply within_ext; [| |exact hw0]; change (2 ^ 0) with 1; ring.
        + rewrite E. destruct hw as (w1 & w2 & w3). destruct hws as (s1 & s2 & s3).
          assert (hb : cnt (length pre) + 1 <= cnt n) by (rewrite <- cnt_S; apply cnt_le; lia).
          pose proof (cnt_pos (length pre)) as hp.
          assert (hbig : cnt n <= 2 ^ 1023).
          { apply Qle_trans with (2 ^ 52); [|apply Qlt_le_weak; reflexivity]. unfold cnt. change (2 ^ 52) with (inject_Z (2 ^ 52)).
            rewrite <- Zle_Qle. lia. }
          assert (hr : rounds (f64_val a + f64_val s) (SFadd fprec femax a s)) by (apply add_rounds; auto; lra).
          assert (h1 : 2 ^ (-1022) <= cnt n).
          { apply Qle_trans with 1; [apply Qlt_le_weak; reflexivity|lra]. }
          assert (hz := rounds_abs (B := cnt n) hr ltac:(lra) ltac:(lra) h1).
          assert (hes : close obj_err (f (length pre)) s).
          { specialize (hf (length pre) ltac:(lia)). rewrite e, app_nth2, Nat.sub_diag in hf by lia. exact hf. }
          assert (esum : sumQ f (seq 0 (S (length pre))) == sumQ f (seq 0 (length pre)) + f (length pre)).
          { rewrite seq_S, sumQ_app. cbn [sumQ fold_right]. rewrite Nat.add_0_l. lra. }
          cbn [ladd NumL_f64]. destruct hc as [c1 c2]. destruct hes as [c3 c4].
          unfold close. rewrite esum, cnt_S. split; ring_simplify; ring_simplify in c1; ring_simplify in c2; lra. }
    apply (G [] ss lzero eq_refl).
    - split; [exact I|]. cbn [lzero NumL_f64 f64_val length]. change (cnt 0) with 0. lra.
    - cbn [length seq sumQ fold_right lzero NumL_f64]. unfold close. cbn [f64_val]. change (cnt 0) with 0. split; ring_simplify; lra.
  Qed.

  Definition avg_err : Q := cnt n * 2 ^ (-48).

  Lemma sil_avg_near (assi : list nat) (ss : list f64) (f : nat -> Q) : (1 <= length assi <= n)%nat ->
    length ss = length assi -> (forall s, In s ss -> within (- (1)) 1 s) ->
    (forall i, (i < length ss)%nat -> close obj_err (f i) (nth i ss lzero)) ->
    close avg_err (sumQ f (seq 0 (length assi)) / inject_Z (Z.of_nat (length assi)))
      (ldiv (fold_left ladd ss lzero) (lfrom_u32 (as_u32 (length assi)))).
  Proof.
    intros hl hs hw hf. pose proof (@sil_sum_near ss f ltac:(lia) hw hf) as hc. rewrite hs in hc.
    rewrite as_u32_small by lia. cbn [lfrom_u32 ldiv NumL_f64]. rewrite nat_N_Z.
    assert (hfl : fits53 (length assi)) by (apply fits_few; lia).
    pose proof (sum_sym_within ss) as hsw. rewrite hs in hsw. destruct (hsw hfl hw) as (w1 & w2 & w3).
    destruct (of_nat_val hfl) as [c1 c2]. set (m := length assi) in *. set (a := fold_left ladd ss lzero) in *.
    fold (cnt m). assert (hm1 : 1 <= cnt m) by (change 1 with (cnt 1); apply cnt_le; lia).
    assert (hn1 : 1 <= cnt n) by (change 1 with (cnt 1); apply cnt_le; lia).
    assert (im : 0 < / cnt m) by (apply Qinv_lt_0_compat; lra).
    set (q := f64_val a / f64_val (f64_of_Z (Z.of_nat m))).
    assert (hq : - (1) <= q /\ q <= 1) by (unfold q; split; [apply Qle_shift_div_l|apply Qle_shift_div_r]; lra).
    assert (p1 : 1 <= 2 ^ 1023) by (apply Qlt_le_weak; reflexivity).
    assert (hr : rounds q (SFdiv fprec femax a (f64_of_Z (Z.of_nat m)))) by (apply div_rounds; auto; fold q; lra).
    assert (hz := rounds_abs (B := 1) hr ltac:(lra) ltac:(lra) ltac:(apply Qlt_le_weak; reflexivity)).
    assert (eq : f64_val a == q * cnt m) by (unfold q; rewrite c2; field; lra).
    set (g := sumQ f (seq 0 m) / cnt m). assert (eg : sumQ f (seq 0 m) == g * cnt m) by (unfold g; field; lra).
    destruct hc as [k1 k2]. rewrite eq, eg in k1, k2.
    assert (G1 : (q - g) * cnt m <= (obj_err + cnt n * 2 ^ (-53)) * cnt m) by lra.
    assert (G2 : (- (obj_err + cnt n * 2 ^ (-53))) * cnt m <= (q - g) * cnt m) by lra.
    apply Qmult_le_r in G1; [|lra]. apply Qmult_le_r in G2; [|lra].
    assert (EE : obj_err + cnt n * 2 ^ (-53) + 2 ^ (-53) * 1 <= avg_err).
    { unfold obj_err, avg_err. assert (e1 : 2 ^ (-52) == 2 * 2 ^ (-53)) by reflexivity. assert (e2 : 2 ^ (-48) == 32 * 2 ^ (-53)) by reflexivity.
      rewrite e1, e2. assert (0 <= (cnt n - 1) * 2 ^ (-53)) by (apply Qmult_le_0_compat; [lra|discriminate]).
      assert (0 <= 2 ^ (-53)) by discriminate. lra. }
    unfold close. lra.
  Qed.

  Lemma silhouette_near assi samples : (1 <= length assi <= n)%nat -> width assi <> 1%nat ->
    oks (silhouette (Lt := f64) M assi samples) (fun p => within (- (1)) 1 (fst p) /\ close avg_err (code_mean D assi) (fst p) /\
      length (snd p) = (if samples then length assi else 0%nat) /\
      forall i, (i < length (snd p))%nat -> within (- (1)) 1 (nth i (snd p) lzero) /\
        close obj_err (code_sil D assi i (nth i assi 0%nat)) (nth i (snd p) lzero)).
  Proof.
    intros hl hw. assert (hu : (N.of_nat (length assi) <= 4294967295)%N) by lia. pose proof (fits_u32 _ hu) as hf.
    rewrite silhouette_eq by exact hw. rewrite (proj1 (proj2 HM)). cbn [bind assertb].
    pose proof (sil_values_within HM entries_within assi (proj2 hl) hf) as h1.
    pose proof (sil_values_near assi (proj2 hl)) as h2.
    apply oks_inv in h1 as (ss & e & a1 & a2). rewrite e in h2. destruct h2 as [b1 b2]. rewrite e.
    cbn [bind oks fst snd]. split; [apply sil_avg_within; auto; lia|]. split; [|split].
    - unfold code_mean. apply sil_avg_near; auto. intros i hi. apply b2. lia.
    - destruct samples; auto.
    - destruct samples; [|cbn [length]; lia]. intros i hi. split; [apply a2, nth_In; auto|]. apply b2. lia.
  Qed.
End Sil.
