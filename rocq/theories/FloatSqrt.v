(** FloatSqrt.v -- multiplication and square root of binary64: products of short numbers are exact, and the square of
    a computed square root is close to the number it was computed from. *)
From Coq Require Import ZArith QArith Qpower Qround Lqa Lia.
From Coq.Floats Require Import SpecFloat.
From Verif Require Import Base Num M_Mat Inst Spec Laws FloatFacts Bounded FloatExact FloatRound.
Set Implicit Arguments.
Open Scope Z_scope.
Local Notation fx := (fexp fprec femax).

(** ** square root *)
(** the exact root of [q^2 + r] lies in the part of the interval between [q] and [q + 1] which is reported *)
Lemma root_cell q r : 1 <= q -> 0 <= r <= 2 * q ->
  let l := if Zeq_bool r 0 then loc_Exact else loc_Inexact (if Zle_bool r q then Lt else Gt) in
  exists f1 f2, fbits (shr_r (shr_record_of_loc q l)) (shr_s (shr_record_of_loc q l)) f1 /\
    fbits (shr_r (shr_record_of_loc q l)) (shr_s (shr_record_of_loc q l)) f2 /\
    ((inject_Z q + f1) * (inject_Z q + f1) <= inject_Z (q * q + r))%Q /\
    (inject_Z (q * q + r) <= (inject_Z q + f2) * (inject_Z q + f2))%Q.
Proof.
  intros hq hr. cbv zeta. set (Qq := inject_Z q).
  assert (hQ : (1 <= Qq)%Q) by (change 1%Q with (inject_Z 1); unfold Qq; rewrite <- Zle_Qle; lia).
  assert (hR : (inject_Z (q * q + r) == Qq * Qq + inject_Z r)%Q) by (rewrite inject_Z_plus, inject_Z_mult; reflexivity).
  set (t := (1 / (4 * (2 * Qq + 1)))%Q).
  assert (ht : (t * (2 * Qq + 1) == 1 # 4)%Q) by (unfold t; field; lra).
  assert (ht0 : (0 < t)%Q) by nra. assert (ht1 : (t <= 1 # 12)%Q) by nra.
  destruct (Zeq_bool r 0) eqn:e0.
  - apply Zeq_bool_eq in e0. subst r. exists 0%Q, 0%Q. cbn. rewrite hR. change (inject_Z 0) with 0%Q.
    split; [reflexivity|]. split; [reflexivity|]. split; nra.
  - apply Zeq_bool_neq in e0. destruct (Zle_bool r q) eqn:e1.
    + apply Zle_bool_imp_le in e1.
      assert (h1 : (1 <= inject_Z r)%Q) by (change 1%Q with (inject_Z 1); rewrite <- Zle_Qle; lia).
      assert (h2 : (inject_Z r <= Qq)%Q) by (unfold Qq; rewrite <- Zle_Qle; lia).
      exists (4 * t)%Q, ((1 # 2) - t)%Q. cbn. rewrite hR. split; [lra|]. split; [lra|]. split; nra.
    + assert (e2 : q + 1 <= r). { destruct (Z_le_gt_dec (q + 1) r) as [|h]; [assumption|]. assert (h' : r <= q) by lia.
        apply Zle_imp_le_bool in h'. congruence. }
      assert (h1 : (Qq + 1 <= inject_Z r)%Q).
      { change 1%Q with (inject_Z 1). unfold Qq. rewrite <- inject_Z_plus, <- Zle_Qle. lia. }
      assert (h2 : (inject_Z r <= 2 * Qq)%Q).
      { change 2%Q with (inject_Z 2). unfold Qq. rewrite <- inject_Z_mult, <- Zle_Qle. lia. }
      exists ((1 # 2) + t)%Q, (1 - t)%Q. cbn. rewrite hR. split; [lra|]. split; [lra|]. split; nra.
Qed.

Lemma sqrt_core m e : 0 < m ->
  let '(q, e', l) := SFsqrt_core_binary fprec femax m e in
  0 < q /\ e' <= fx (Zdigits2 q + e') /\
  exists z1 z2, (0 < z1)%Q /\ (0 < z2)%Q /\ at_pos z1 e' (shr_record_of_loc q l) /\ at_pos z2 e' (shr_record_of_loc q l) /\
    (z1 * z1 <= inject_Z m * 2 ^ e)%Q /\ (inject_Z m * 2 ^ e <= z2 * z2)%Q /\
    (z2 <= inject_Z (q + 1) * 2 ^ e')%Q /\ (inject_Z (q * q) * 2 ^ (2 * e') <= inject_Z m * 2 ^ e)%Q.
Proof.
  intros hm. unfold SFsqrt_core_binary.
  set (e' := Z.min (fx (Z.div2 (Zdigits2 m + e + 1))) (Z.div2 e)). set (s := e - 2 * e').
  assert (hs : 0 <= s). { unfold s, e'. rewrite (Z.div2_div e). pose proof (Z.mul_div_le e 2 ltac:(lia)). lia. }
  assert (em : match s with 0 => m | Zpos _ => Z.shiftl m s | Zneg _ => 0 end = m * 2 ^ s).
  { destruct s as [|p|p] eqn:es; [rewrite Z.pow_0_r; lia|rewrite Z.shiftl_mul_pow2 by lia; reflexivity|lia]. }
  rewrite em. clear em. set (m' := m * 2 ^ s).
  assert (hp : 0 < 2 ^ s) by (apply Z.pow_pos_nonneg; lia). assert (hm' : 0 < m') by (unfold m'; nia).
  pose proof (Z.sqrtrem_spec m' ltac:(lia)) as hsq. destruct (Z.sqrtrem m') as [q r]. destruct hsq as [hq hr].
  assert (hq0 : 1 <= q). { destruct (Z_lt_le_dec q 1); [exfalso; nia|assumption]. }
  split; [lia|]. split.
  - assert (hd : Z.div2 (Zdigits2 m + e + 1) <= Zdigits2 q + e').
    { pose proof (digits_bounds hm) as b1. assert (b3 : 2 ^ (Zdigits2 q - 1) <= q < 2 ^ Zdigits2 q) by (apply digits_bounds; lia).
      assert (hdm : 1 <= Zdigits2 m) by (destruct m; cbn [Zdigits2]; lia).
      assert (hdq : 1 <= Zdigits2 q) by (destruct q; cbn [Zdigits2]; lia).
      set (k := (Zdigits2 m - 1 + s) / 2).
      assert (hk0 : 0 <= k) by (apply Z.div_pos; lia).
      assert (hk2 : 2 * k <= Zdigits2 m - 1 + s) by (apply Z.mul_div_le; lia).
      assert (hk3 : Z.div2 (Zdigits2 m + e + 1) = k + 1 + e').
      { rewrite Z.div2_div. unfold k. replace (Zdigits2 m + e + 1) with (Zdigits2 m - 1 + s + (1 + e') * 2) by (unfold s; lia).
        rewrite Z.div_add by lia. lia. }
      assert (hb : 2 ^ k * 2 ^ k <= m').
      { rewrite <- Z.pow_add_r by lia. apply Z.le_trans with (2 ^ (Zdigits2 m - 1 + s)).
        - apply Z.pow_le_mono_r; lia.
        - rewrite Z.pow_add_r by lia. unfold m'. nia. }
      assert (hp2 : 0 < 2 ^ k) by (apply Z.pow_pos_nonneg; lia).
      assert (hkq : 2 ^ k <= q) by nia.
      assert (h : 2 ^ k < 2 ^ Zdigits2 q) by lia. apply Z.pow_lt_mono_r_iff in h; [lia|lia|lia]. }
    apply Z.le_trans with (fx (Z.div2 (Zdigits2 m + e + 1))); [unfold e'; lia|]. rewrite !fx_def. lia.
  - destruct (@root_cell q r hq0 ltac:(lia)) as (f1 & f2 & b1 & b2 & c1 & c2).
    set (l := if Zeq_bool r 0 then loc_Exact else loc_Inexact (if Zle_bool r q then Lt else Gt)) in *.
    pose proof (pow2_pos e') as pe.
    assert (hQ : (1 <= inject_Z q)%Q) by (change 1%Q with (inject_Z 1); rewrite <- Zle_Qle; lia).
    assert (hee : (inject_Z m * 2 ^ e == inject_Z (q * q + r) * (2 ^ e' * 2 ^ e'))%Q).
    { rewrite <- hq. unfold m'. rewrite inject_Z_mult, <- (@pow2_inject s hs), <- Qmult_assoc.
      rewrite <- !Qpower_plus by discriminate. replace (s + (e' + e')) with e by (unfold s; lia). reflexivity. }
    assert (pee : (0 < 2 ^ e' * 2 ^ e')%Q) by nra.
    pose proof (fbits_range _ _ _ b1) as g1. pose proof (fbits_range _ _ _ b2) as g2.
    exists ((inject_Z q + f1) * 2 ^ e')%Q, ((inject_Z q + f2) * 2 ^ e')%Q.
    split; [apply Qmult_lt_0_compat; lra|]. split; [apply Qmult_lt_0_compat; lra|].
    split; [exists f1; rewrite record_of_loc; split; [exact b1|reflexivity]|].
    split; [exists f2; rewrite record_of_loc; split; [exact b2|reflexivity]|].
    assert (sw : forall a b : Q, (a * b * (a * b) == a * a * (b * b))%Q) by (intros; ring).
    rewrite !sw, hee. split; [apply Qmult_le_compat_r; [exact c1|lra]|]. split; [apply Qmult_le_compat_r; [exact c2|lra]|].
    split; [apply Qmult_le_compat_r; [rewrite inject_Z_plus; change (inject_Z 1) with 1%Q; lra|lra]|].
    replace (2 * e') with (e' + e') by lia. rewrite Qpower_plus by discriminate.
    apply Qmult_le_compat_r; [rewrite <- Zle_Qle; lia|lra].
Qed.

(** the computed root is the rounding of a number slightly below, and of a number slightly above, the exact root *)
Lemma sqrt_rounds a : f64_finite a -> (0 < f64_val a)%Q ->
  exists z1 z2, (0 < z1)%Q /\ (0 < z2)%Q /\ (z1 * z1 <= f64_val a)%Q /\ (f64_val a <= z2 * z2)%Q /\
    rounds z1 (SFsqrt fprec femax a) /\ rounds z2 (SFsqrt fprec femax a).
Proof.
  intros ha hp. destruct a as [s|s| |s m e]; try contradiction.
  { cbn [f64_val] in hp. lra. }
  destruct s; cbn [SFsqrt].
  { exfalso. cbn [f64_val] in hp. rewrite neg_val in hp. pose proof (f64_pos m e). lra. }
  pose proof (@sqrt_core (Zpos m) e ltac:(lia)) as hd.
  cbn [f64_finite] in ha. pose proof ha as ha0. apply bounded_digits in ha as (h1 & h2 & h3). pose proof (digits_upper m) as u.
  assert (hm : (inject_Z (Zpos m) * 2 ^ e < 2 ^ 1024)%Q).
  { assert (he : e <= 971).
    { unfold bounded in ha0. apply Bool.andb_true_iff in ha0 as [_ h]. apply Z.leb_le in h. unfold femax, fprec in h. lia. }
    assert (hmm : Zpos m < 2 ^ 53). { apply Z.lt_le_trans with (1 := u). apply Z.pow_le_mono_r; lia. }
    apply Qlt_le_trans with (inject_Z (2 ^ 53) * 2 ^ e)%Q.
    - apply Qmult_lt_r; [apply pow2_pos|]. rewrite <- Zlt_Qlt. exact hmm.
    - rewrite <- pow2_inject, <- Qpower_plus by (lia || discriminate). apply pow2_le. lia. }
  destruct (SFsqrt_core_binary fprec femax (Zpos m) e) as [[q e'] l].
  destruct hd as (d1 & d2 & z1 & z2 & p1 & p2 & a1 & a2 & s1 & s2 & s3 & s4).
  assert (hb : (z2 <= 2 ^ 1023)%Q).
  { pose proof (pow2_pos e') as pe. apply Qle_trans with (1 := s3).
    assert (hq1 : (1 <= inject_Z q)%Q) by (change 1%Q with (inject_Z 1); rewrite <- Zle_Qle; lia).
    assert (hw : (inject_Z q * 2 ^ e' < 2 ^ 512)%Q).
    { destruct (Qlt_le_dec (inject_Z q * 2 ^ e') (2 ^ 512)) as [|h]; [assumption|exfalso].
      assert (h' : (2 ^ 512 * 2 ^ 512 <= inject_Z q * 2 ^ e' * (inject_Z q * 2 ^ e'))%Q).
      { set (B := (2 ^ 512)%Q) in *. assert (0 < B)%Q by (apply pow2_pos). clearbody B. nra. }
      replace (2 * e') with (e' + e') in s4 by lia. rewrite Qpower_plus, inject_Z_mult in s4 by discriminate.
      assert (e5 : (2 ^ 512 * 2 ^ 512 == 2 ^ 1024)%Q) by (rewrite <- Qpower_plus by discriminate; reflexivity).
      rewrite e5 in h'. set (B := (2 ^ 1024)%Q) in *. clearbody B. lra. }
    rewrite inject_Z_plus. change (inject_Z 1) with 1%Q.
    apply Qle_trans with (2 * (inject_Z q * 2 ^ e'))%Q; [nra|].
    apply Qle_trans with (2 * 2 ^ 512)%Q; [lra|]. vm_compute. discriminate. }
  assert (hb1 : (z1 <= 2 ^ 1023)%Q).
  { destruct (Qlt_le_dec (2 ^ 1023) z1) as [h|]; [|assumption]. exfalso. set (B := (2 ^ 1023)%Q) in *. clearbody B. nra. }
  exists z1, z2. split; [exact p1|]. split; [exact p2|]. split; [exact s1|]. split; [exact s2|].
  split; [apply (@aux_rounds false q e' l z1)|apply (@aux_rounds false q e' l z2)]; auto; lia.
Qed.

(** relative error of a result which is not tiny *)
Lemma rounds_normal x y : rounds x y -> (2 ^ (-1022) <= x)%Q ->
  ((1 - 2 ^ (-53)) * x <= f64_val y)%Q /\ (f64_val y <= (1 + 2 ^ (-53)) * x)%Q.
Proof.
  intros (hf & R & e & hR & he & hv & h1 & h2 & h3) hx.
  assert (hh : ((1 # 2) * 2 ^ e == 2 ^ (-53) * 2 ^ (e + 52))%Q).
  { rewrite <- Qpower_plus by discriminate. replace (-53 + (e + 52)) with (e + -1) by lia. rewrite Qpower_plus by discriminate.
    change (2 ^ (-1))%Q with (1 # 2)%Q. ring. }
  assert (h4 : (2 ^ (e + 52) <= x)%Q).
  { destruct h3 as [->|[h3|h3]]; [exact hx|exact h3|]. exfalso. pose proof (pow2_pos (e + 52)). pose proof (pow2_pos (-1022)).
    set (B := (2 ^ (-1022))%Q) in *. clearbody B. lra. }
  assert (pp : (0 < 2 ^ (-53))%Q) by reflexivity. rewrite hh in h1, h2. set (u := (2 ^ (-53))%Q) in *. clearbody u.
  set (p := (2 ^ (e + 52))%Q) in *. clearbody p. split; nra.
Qed.

Theorem sqrt_close a : f64_finite a -> (0 < f64_val a)%Q ->
  f64_finite (SFsqrt fprec femax a) /\ (0 < f64_val (SFsqrt fprec femax a))%Q /\
  ((1 - 2 ^ (-53)) * (1 - 2 ^ (-53)) * f64_val a <= f64_val (SFsqrt fprec femax a) * f64_val (SFsqrt fprec femax a))%Q /\
  (f64_val (SFsqrt fprec femax a) * f64_val (SFsqrt fprec femax a) <= (1 + 2 ^ (-53)) * (1 + 2 ^ (-53)) * f64_val a)%Q.
Proof.
  intros ha hp. destruct (@sqrt_rounds a ha hp) as (z1 & z2 & p1 & p2 & s1 & s2 & r1 & r2).
  destruct (finite_min_grid _ ha) as (z & hz).
  assert (hz1 : 1 <= z).
  { assert (h : (0 < inject_Z z * 2 ^ (-1074))%Q) by (rewrite <- hz; exact hp). pose proof (pow2_pos (-1074)) as pe.
    assert (0 < z); [|lia]. rewrite Zlt_Qlt. change (inject_Z 0) with 0%Q. set (B := (2 ^ (-1074))%Q) in *. clearbody B. nra. }
  assert (hlow : (2 ^ (-1074) <= f64_val a)%Q).
  { rewrite hz. rewrite <- (Qmult_1_l (2 ^ (-1074))) at 1. apply Qmult_le_compat_r; [|pose proof (pow2_pos (-1074)); lra].
    change 1%Q with (inject_Z 1). rewrite <- Zle_Qle. exact hz1. }
  set (y := SFsqrt fprec femax a) in *. clearbody y.
  assert (l2 : (2 ^ (-537) <= z2)%Q).
  { destruct (Qlt_le_dec z2 (2 ^ (-537))) as [h|]; [exfalso|assumption].
    assert (e5 : (2 ^ (-1074) == 2 ^ (-537) * 2 ^ (-537))%Q) by (rewrite <- Qpower_plus by discriminate; reflexivity).
    rewrite e5 in hlow. set (B := (2 ^ (-537))%Q) in *. clearbody B. nra. }
  assert (p53 : (2 ^ (-53) < 1)%Q) by reflexivity. assert (q53 : (0 < 2 ^ (-53))%Q) by reflexivity.
  destruct (rounds_normal r2) as [u1 u2]; [apply Qle_trans with (2 := l2); apply pow2_le; lia|].
  assert (hy : (2 ^ (-540) <= f64_val y)%Q).
  { apply Qle_trans with (2 := u1). apply Qle_trans with ((1 - 2 ^ (-53)) * 2 ^ (-537))%Q; [vm_compute; discriminate|].
    apply Qmult_le_l; [lra|exact l2]. }
  assert (l1 : (2 ^ (-1022) <= z1)%Q).
  { destruct r1 as (_ & R & e & _ & he & _ & _ & r4 & r5).
    destruct (Qlt_le_dec z1 (2 ^ (-1022))) as [h|]; [exfalso|assumption].
    destruct r5 as [->|[r5|r5]].
    - assert (hc : (2 ^ (-1022) + (1 # 2) * 2 ^ (-1074) < 2 ^ (-540))%Q) by reflexivity.
      set (B1 := (2 ^ (-1022))%Q) in *. set (B2 := (2 ^ (-1074))%Q) in *. set (B3 := (2 ^ (-540))%Q) in *. clearbody B1 B2 B3. lra.
    - assert (h' : (2 ^ (e + 52) < 2 ^ (-1022))%Q) by (apply Qle_lt_trans with z1; auto). apply pow2_lt in h'. lia.
    - pose proof (pow2_pos (e + 52)). lra. }
  destruct (rounds_normal r1 l1) as [w1 w2].
  assert (hy0 : (0 < f64_val y)%Q) by (pose proof (pow2_pos (-540)); apply Qlt_le_trans with (2 ^ (-540))%Q; auto).
  split; [exact (proj1 r1)|]. split; [exact hy0|].
  set (u := (2 ^ (-53))%Q) in *. set (Y := f64_val y) in *. set (A := f64_val a) in *. clearbody u Y A.
  clear - u1 w2 s1 s2 p1 p2 p53 q53 hy0. split.
  - apply Qle_trans with ((1 - u) * z2 * ((1 - u) * z2))%Q.
    + setoid_replace ((1 - u) * z2 * ((1 - u) * z2))%Q with ((1 - u) * (1 - u) * (z2 * z2))%Q by ring.
      apply Qmult_le_l; [nra|exact s2].
    + assert (0 < (1 - u) * z2)%Q by nra. nra.
  - apply Qle_trans with ((1 + u) * z1 * ((1 + u) * z1))%Q.
    + assert (0 < (1 + u) * z1)%Q by nra. nra.
    + setoid_replace ((1 + u) * z1 * ((1 + u) * z1))%Q with ((1 + u) * (1 + u) * (z1 * z1))%Q by ring.
      apply Qmult_le_l; [nra|exact s1].
Qed.

(** ** products *)
Lemma digits_mul m1 m2 : Zpos (digits2_pos m1) + Zpos (digits2_pos m2) - 1 <= Zpos (digits2_pos (m1 * m2)).
Proof.
  rewrite !digits_log2. change (Zpos (m1 * m2)) with (Zpos m1 * Zpos m2).
  pose proof (Z.log2_mul_below (Zpos m1) (Zpos m2) ltac:(lia) ltac:(lia)). lia.
Qed.

Lemma grid_mul g1 g2 a b x y : f64_grid g1 a x -> f64_grid g2 b y -> Z.abs (x * y) <= 2 ^ 53 -> -1074 <= g1 + g2 <= 970 ->
  f64_grid (g1 + g2) (SFmul fprec femax a b) (x * y).
Proof.
  intros ha hb hxy hg.
  assert (hz : forall s g, x * y = 0 -> f64_grid g (S754_zero s) (x * y)).
  { intros s g ->. split; [exact I|]. cbn [f64_val]. change (inject_Z 0) with 0%Q. rewrite Qmult_0_l. reflexivity. }
  destruct a as [sa|sa| |sa ma ea]; try (exfalso; exact (proj1 ha)); destruct b as [sb|sb| |sb mb eb]; try (exfalso; exact (proj1 hb));
    cbn [SFmul].
  - apply hz. rewrite (grid_zero_l ha). lia.
  - apply hz. rewrite (grid_zero_l ha). lia.
  - apply hz. rewrite (grid_zero_l hb). lia.
  - destruct ha as [fa va], hb as [fb vb]. cbn [f64_finite] in fa, fb.
    apply bounded_digits in fa as (a1 & a2 & a3). apply bounded_digits in fb as (b1 & b2 & b3).
    assert (he : binary_round_aux fprec femax (xorb sa sb) (Zpos (ma * mb)) (ea + eb) loc_Exact =
                 binary_round fprec femax (xorb sa sb) (ma * mb) (ea + eb)).
    { unfold binary_round. rewrite shl_align_id; [reflexivity|]. pose proof (digits_mul ma mb) as hd. rewrite fx_def.
      destruct (Z.eq_dec ea (-1074)) as [ha|ha]; [destruct (Z.eq_dec eb (-1074)) as [hb|hb]|]; [lia| |];
        try rewrite (b3 ltac:(lia)) in hd; try rewrite (a3 ltac:(lia)) in hd; lia. }
    rewrite he. cbn [f64_val] in va, vb.
    assert (hv : (inject_Z (if xorb sa sb then Zneg (ma * mb) else Zpos (ma * mb)) * 2 ^ (ea + eb) == inject_Z (x * y) * 2 ^ (g1 + g2))%Q).
    { rewrite inject_Z_mult, !Qpower_plus by discriminate.
      setoid_replace (inject_Z x * inject_Z y * (2 ^ g1 * 2 ^ g2))%Q with ((inject_Z x * 2 ^ g1) * (inject_Z y * 2 ^ g2))%Q by ring.
      rewrite <- va, <- vb.
      assert (hs : (if xorb sa sb then Zneg (ma * mb) else Zpos (ma * mb)) =
        (if sa then Zneg ma else Zpos ma) * (if sb then Zneg mb else Zpos mb)) by (destruct sa, sb; reflexivity).
      rewrite hs, inject_Z_mult. ring. }
    pose proof (@normalize_exact (if xorb sa sb then Zneg (ma * mb) else Zpos (ma * mb)) (ea + eb) (x * y) (g1 + g2) false hv hxy hg) as hn.
    destruct (xorb sa sb); exact hn.
Qed.
