(** FloatRound.v -- rounding of binary64 to nearest: the result of an operation is a closest
    representable number of the exact result. *)
From Coq Require Import ZArith QArith Qpower Qround Lqa Lia.
From Coq.Floats Require Import SpecFloat.
From Verif Require Import Base Num M_Mat Inst Spec Laws FloatFacts Bounded FloatExact.
Set Implicit Arguments.
Open Scope Z_scope.
Local Notation fx := (fexp fprec femax).

(** ** position of a number relative to a grid: [x = (m + f) * 2^e] *)
Definition fbits (r s : bool) (f : Q) : Prop :=
  match r, s with
  | false, false => (f == 0)%Q
  | false, true => (0 < f /\ f < 1 # 2)%Q
  | true, false => (f == 1 # 2)%Q
  | true, true => ((1 # 2) < f /\ f < 1)%Q
  end.
Definition at_pos (x : Q) (e : Z) (mrs : shr_record) : Prop :=
  exists f, fbits (shr_r mrs) (shr_s mrs) f /\ (x == (inject_Z (shr_m mrs) + f) * 2 ^ e)%Q.

Lemma fbits_range r s f : fbits r s f -> (0 <= f /\ f < 1)%Q.
Proof. destruct r, s; cbn; lra. Qed.

Lemma pow2_S e : (2 ^ (e + 1) == 2 * 2 ^ e)%Q.
Proof. rewrite Qpower_plus by discriminate. change (2 ^ 1)%Q with 2%Q. ring. Qed.

Lemma shr_1_at x e mrs : 0 <= shr_m mrs -> at_pos x e mrs ->
  at_pos x (e + 1) (shr_1 mrs) /\ 0 <= shr_m (shr_1 mrs).
Proof.
  intros hm (f & hf & hx). destruct mrs as [m r s]. cbn [shr_m shr_r shr_s] in *.
  assert (D : forall p b, m = 2 * p + (if b : bool then 1 else 0) -> 0 <= p ->
     at_pos x (e + 1) {| shr_m := p; shr_r := b; shr_s := orb r s |}).
  { intros p b e1 hp. exists (((if b then 1 else 0) + f) * (1 # 2))%Q. split.
    - cbn [shr_r shr_s]. unfold fbits in *. destruct r, s, b; cbn [orb] in *; try lra; split; lra.
    - cbn [shr_m]. rewrite hx, pow2_S, e1, inject_Z_plus, inject_Z_mult. destruct b.
      + change (inject_Z 1) with 1%Q. change (inject_Z 2) with 2%Q. field.
      + change (inject_Z 0) with 0%Q. change (inject_Z 2) with 2%Q. field. }
  destruct m as [|[p|p|]|p]; cbn [shr_1 shr_m]; (split; [apply D; lia|lia]) || lia.
Qed.

Lemma iter_at p : forall x e mrs, 0 <= shr_m mrs -> at_pos x e mrs ->
  at_pos x (e + Zpos p) (SpecFloat.iter_pos shr_1 p mrs) /\ 0 <= shr_m (SpecFloat.iter_pos shr_1 p mrs).
Proof.
  induction p as [p IH|p IH|]; intros x e mrs h0 h; cbn [SpecFloat.iter_pos].
  - destruct (shr_1_at h0 h) as [h1 h2]. destruct (IH _ _ _ h2 h1) as [h3 h4]. destruct (IH _ _ _ h4 h3) as [h5 h6].
    split; [|exact h6]. replace (e + Zpos p~1) with (e + 1 + Zpos p + Zpos p) by lia. exact h5.
  - destruct (IH _ _ _ h0 h) as [h3 h4]. destruct (IH _ _ _ h4 h3) as [h5 h6].
    split; [|exact h6]. replace (e + Zpos p~0) with (e + Zpos p + Zpos p) by lia. exact h5.
  - apply shr_1_at; assumption.
Qed.

Lemma shr_at x e mrs n : 0 <= shr_m mrs -> at_pos x e mrs ->
  at_pos x (snd (shr mrs e n)) (fst (shr mrs e n)) /\ 0 <= shr_m (fst (shr mrs e n)) /\ snd (shr mrs e n) = Z.max e (e + n).
Proof.
  intros h0 h. unfold shr. destruct n as [|p|p]; cbn [fst snd].
  - split; [exact h|]. split; [exact h0|lia].
  - destruct (iter_at p h0 h) as [h1 h2]. split; [exact h1|]. split; [exact h2|lia].
  - split; [exact h|]. split; [exact h0|lia].
Qed.

Lemma rne_near x e mrs : 0 <= shr_m mrs -> at_pos x e mrs ->
  let R := round_nearest_even (shr_m mrs) (loc_of_shr_record mrs) in
  (R = shr_m mrs \/ R = shr_m mrs + 1) /\
  (- ((1 # 2) * 2 ^ e) <= inject_Z R * 2 ^ e - x)%Q /\ (inject_Z R * 2 ^ e - x <= (1 # 2) * 2 ^ e)%Q.
Proof.
  intros hm (f & hf & hx). destruct mrs as [m r s]. cbn [shr_m shr_r shr_s] in *.
  pose proof (pow2_pos e) as p. cbv zeta.
  assert (D0 : (f <= 1 # 2)%Q -> (0 <= f)%Q -> (- ((1 # 2) * 2 ^ e) <= inject_Z m * 2 ^ e - x)%Q /\ (inject_Z m * 2 ^ e - x <= (1 # 2) * 2 ^ e)%Q).
  { intros h1 h2. rewrite hx. split; nra. }
  assert (D1 : ((1 # 2) <= f)%Q -> (f <= 1)%Q -> (- ((1 # 2) * 2 ^ e) <= inject_Z (m + 1) * 2 ^ e - x)%Q /\ (inject_Z (m + 1) * 2 ^ e - x <= (1 # 2) * 2 ^ e)%Q).
  { intros h1 h2. rewrite hx, inject_Z_plus. change (inject_Z 1) with 1%Q. split; nra. }
  destruct r, s; cbn in hf; cbn [loc_of_shr_record round_nearest_even].
  - split; [auto|]. apply D1; lra.
  - destruct (Z.even m); (split; [auto|]); [apply D0|apply D1]; lra.
  - split; [auto|]. apply D0; lra.
  - split; [auto|]. apply D0; lra.
Qed.

Lemma record_of_loc m l : shr_m (shr_record_of_loc m l) = m.
Proof. destruct l as [|[]]; reflexivity. Qed.

Lemma pow2_lt a b : (2 ^ a < 2 ^ b)%Q -> a < b.
Proof.
  intros h. destruct (Z_lt_le_dec a b) as [|h']; [assumption|exfalso]. replace a with (b + (a - b)) in h by lia.
  rewrite Qpower_plus in h by discriminate. rewrite (@pow2_inject (a - b)) in h by lia.
  assert (h1 : 1 <= 2 ^ (a - b)) by (pose proof (Z.pow_pos_nonneg 2 (a - b)); lia).
  rewrite Zle_Qle in h1. change (inject_Z 1) with 1%Q in h1. pose proof (pow2_pos b). nra.
Qed.

Lemma pow2_le a b : a <= b -> (2 ^ a <= 2 ^ b)%Q.
Proof.
  intros h. destruct (Qlt_le_dec (2 ^ b) (2 ^ a)) as [h'|]; [|assumption]. apply pow2_lt in h'. lia.
Qed.

(** [R * 2^e] is the result of rounding [x >= 0] *)
Definition near_grid (x : Q) (R e : Z) : Prop :=
  0 <= R <= 2 ^ 53 /\ -1074 <= e /\
  (- ((1 # 2) * 2 ^ e) <= inject_Z R * 2 ^ e - x)%Q /\ (inject_Z R * 2 ^ e - x <= (1 # 2) * 2 ^ e)%Q /\
  (e = -1074 \/ (2 ^ (e + 52) <= x)%Q).

Lemma round_aux_near sx mx ex lx x : 0 <= mx -> at_pos x ex (shr_record_of_loc mx lx) ->
  ex <= fx (Zdigits2 mx + ex) ->
  exists R e, near_grid x R e /\
    ((inject_Z R * 2 ^ e < 2 ^ 1024)%Q ->
      f64_finite (binary_round_aux fprec femax sx mx ex lx) /\
      (f64_val (binary_round_aux fprec femax sx mx ex lx) == inject_Z (if sx then - R else R) * 2 ^ e)%Q).
Proof.
  intros hm hx he. set (D := Zdigits2 mx + ex) in *.
  assert (hD : (x < 2 ^ D)%Q /\ (mx = 0 \/ (2 ^ (D - 1) <= x)%Q)).
  { destruct hx as (f & hf & ->). apply fbits_range in hf. rewrite record_of_loc. pose proof (pow2_pos ex) as p.
    destruct mx as [|m|m]; [| |lia].
    - unfold D. cbn [Zdigits2]. split; [|auto]. rewrite Z.add_0_l. change (inject_Z 0) with 0%Q. nra.
    - unfold D. cbn [Zdigits2]. split.
      + rewrite Qpower_plus by discriminate. rewrite (@pow2_inject (Zpos (digits2_pos m))) by lia. pose proof (digits_upper m) as u.
        assert (u' : Zpos m + 1 <= 2 ^ Zpos (digits2_pos m)) by lia. rewrite Zle_Qle, inject_Z_plus in u'.
        change (inject_Z 1) with 1%Q in u'. nra.
      + right. replace (Zpos (digits2_pos m) + ex - 1) with ((Zpos (digits2_pos m) - 1) + ex) by lia.
        rewrite Qpower_plus by discriminate. rewrite (@pow2_inject (Zpos (digits2_pos m) - 1)) by lia. pose proof (digits_lower m) as u.
        rewrite Zle_Qle in u. nra. }
  set (e := fx D) in *. assert (ee : e = Z.max (D - 53) (-1074)) by reflexivity.
  remember (binary_round_aux fprec femax sx mx ex lx) as y eqn:hy. revert hy.
  unfold binary_round_aux. unfold shr_fexp at 1. fold D. fold e.
  destruct (@shr_at x ex (shr_record_of_loc mx lx) (e - ex)) as (h1 & h2 & h3); [rewrite record_of_loc; exact hm|exact hx|].
  destruct (shr (shr_record_of_loc mx lx) ex (e - ex)) as [mrs e1]. cbn [fst snd] in h1, h2, h3.
  assert (h4 : e1 = e) by lia. clear h3. rewrite h4 in h1 |- *. clear e1 h4.
  destruct (rne_near h2 h1) as (r1 & r2 & r3).
  set (R := round_nearest_even (shr_m mrs) (loc_of_shr_record mrs)) in *.
  pose proof (pow2_pos e) as pe.
  assert (hmr : shr_m mrs < 2 ^ 53 /\ (e = -1074 \/ (2 ^ (e + 52) <= x)%Q /\ 2 ^ 52 <= shr_m mrs)).
  { destruct h1 as (f & hf & hxm). apply fbits_range in hf. split.
    - assert (hl : (x < 2 ^ 53 * 2 ^ e)%Q).
      { apply Qlt_le_trans with (1 := proj1 hD). rewrite <- Qpower_plus by discriminate. apply pow2_le. lia. }
      rewrite hxm in hl. change (2 ^ 53)%Q with (inject_Z (2 ^ 53)) in hl.
      apply Qmult_lt_r in hl; [|exact pe]. rewrite Zlt_Qlt. lra.
    - destruct (Z.eq_dec e (-1074)) as [|hne]; [left; assumption|right].
      assert (mx <> 0). { intros ->. unfold D in ee. cbn [Zdigits2] in ee. lia. }
      destruct (proj2 hD) as [|hl]; [contradiction|]. replace (D - 1) with (e + 52) in hl by lia.
      split; [exact hl|]. rewrite Z.add_comm, Qpower_plus in hl by discriminate.
      change (2 ^ 52)%Q with (inject_Z (2 ^ 52)) in hl. rewrite hxm in hl. apply Qmult_le_r in hl; [|exact pe].
      assert (h : 2 ^ 52 < shr_m mrs + 1); [|lia]. rewrite Zlt_Qlt, inject_Z_plus. change (inject_Z 1) with 1%Q. lra. }
  assert (hR : 0 <= R <= 2 ^ 53) by lia.
  intros hy. exists R, e. split.
  { split; [exact hR|]. split; [lia|]. split; [exact r2|]. split; [exact r3|]. destruct hmr as [_ [h|[h _]]]; auto. }
  intros hov.
  assert (hR52 : e = -1074 \/ 2 ^ 52 <= R) by lia.
  assert (he2 : 2 ^ 52 <= R -> e <= 971).
  { intros h. assert (e + 52 < 1024); [|lia]. apply pow2_lt. rewrite Z.add_comm, Qpower_plus by discriminate.
    change (2 ^ 52)%Q with (inject_Z (2 ^ 52)). rewrite Zle_Qle in h. nra. }
  assert (hsign : forall m : positive, R = Zpos m -> (inject_Z (if sx then Zneg m else Zpos m) * 2 ^ e == inject_Z (if sx then - R else R) * 2 ^ e)%Q)
    by (intros m ->; reflexivity).
  revert hy. unfold shr_fexp, shr_record_of_loc. destruct R as [|m|m]; [| |lia].
  - (* zero *)
    cbn [Zdigits2]. rewrite Z.add_0_l. assert (hf : fx e - e <= 0) by (rewrite fx_def; lia).
    destruct (fx e - e) as [|q|q]; [|lia|]; cbn [shr shr_m]; intros ->; (split; [exact I|]); cbn [f64_val];
      destruct sx; cbn [Z.opp]; change (inject_Z 0) with 0%Q; rewrite Qmult_0_l; reflexivity.
  - cbn [Zdigits2]. rewrite digits_log2. destruct (Z.eq_dec (Zpos m) (2 ^ 53)) as [e53|n53].
    + (* carry *)
      assert (em : m = Pos.pow 2 53) by (apply (f_equal Z.to_pos) in e53; exact e53). subst m. clear e53.
      change (Z.log2 (Zpos (2 ^ 53)) + 1) with 54. replace (fx (54 + e) - e) with 1 by (rewrite fx_def; lia).
      cbn [shr SpecFloat.iter_pos]. change (shr_1 {| shr_m := Zpos (2 ^ 53); shr_r := false; shr_s := false |})
        with {| shr_m := Zpos (2 ^ 52); shr_r := false; shr_s := false |}. cbn [shr_m].
      assert (e + 53 < 1024).
      { apply pow2_lt. rewrite Z.add_comm, Qpower_plus by discriminate. exact hov. }
      replace (e + 1 <=? femax - fprec) with true by (symmetry; apply Z.leb_le; unfold femax, fprec; lia).
      intros ->. split.
      * cbn [f64_finite]. unfold bounded, canonical_mantissa. rewrite digits_log2.
        change (Z.log2 (Zpos (2 ^ 52)) + 1) with 53.
        rewrite Bool.andb_true_iff. split; [apply Zeq_is_eq_bool; rewrite fx_def; lia|apply Z.leb_le; unfold femax, fprec; lia].
      * cbn [f64_val]. rewrite pow2_S. destruct sx; [change (inject_Z (- Zpos (2 ^ 53))) with (inject_Z (- 2 ^ 53))
          ; change (inject_Z (Zneg (2 ^ 52))) with (inject_Z (- 2 ^ 52))
          |change (inject_Z (Zpos (2 ^ 53))) with (inject_Z (2 ^ 53)); change (inject_Z (Zpos (2 ^ 52))) with (inject_Z (2 ^ 52))].
        -- change (inject_Z (- 2 ^ 53)) with (inject_Z (- 2 ^ 52) * 2)%Q. ring.
        -- change (inject_Z (2 ^ 53)) with (inject_Z (2 ^ 52) * 2)%Q. ring.
    + assert (hl : Z.log2 (Zpos m) + 1 <= 53).
      { assert (Z.log2 (Zpos m) < 53) by (apply Z.log2_lt_pow2; lia). lia. }
      assert (hd : e = -1074 \/ Z.log2 (Zpos m) + 1 = 53).
      { destruct hR52 as [|h]; [auto|]. right. assert (52 <= Z.log2 (Zpos m)) by (apply Z.log2_le_pow2; lia). lia. }
      pose proof (Z.log2_nonneg (Zpos m)) as hl0.
      assert (hf : fx (Z.log2 (Zpos m) + 1 + e) = e) by (rewrite fx_def; lia). rewrite hf, Z.sub_diag. cbn [shr shr_m].
      replace (e <=? femax - fprec) with true by (symmetry; apply Z.leb_le; unfold femax, fprec; lia).
      intros ->. split.
      * cbn [f64_finite]. unfold bounded, canonical_mantissa. rewrite digits_log2, hf.
        rewrite Bool.andb_true_iff. split; [apply Zeq_is_eq_bool; reflexivity|apply Z.leb_le; unfold femax, fprec; lia].
      * cbn [f64_val]. apply hsign. reflexivity.
Qed.

(** [y] is finite and [x] rounded to nearest *)
Definition rounds (x : Q) (y : f64) : Prop :=
  f64_finite y /\ exists R e, - 2 ^ 53 <= R <= 2 ^ 53 /\ -1074 <= e /\ (f64_val y == inject_Z R * 2 ^ e)%Q /\
    (- ((1 # 2) * 2 ^ e) <= f64_val y - x)%Q /\ (f64_val y - x <= (1 # 2) * 2 ^ e)%Q /\
    (e = -1074 \/ (2 ^ (e + 52) <= x)%Q \/ (x <= - 2 ^ (e + 52))%Q).

Lemma rounds_ext x x' y : (x == x')%Q -> rounds x y -> rounds x' y.
Proof.
  intros h (h1 & R & e & h2 & h3 & h4 & h5 & h6 & h7). split; [exact h1|]. exists R, e. rewrite <- h.
  split; [exact h2|]. split; [exact h3|]. split; [exact h4|]. split; [exact h5|]. split; [exact h6|]. exact h7.
Qed.

Lemma pow2_le_inv a b : (2 ^ a <= 2 ^ b)%Q -> a <= b.
Proof.
  intros h. destruct (Z_le_gt_dec a b) as [|h']; [assumption|exfalso].
  assert (h1 : (2 ^ (b + 1) <= 2 ^ a)%Q) by (apply pow2_le; lia). rewrite pow2_S in h1. pose proof (pow2_pos b). lra.
Qed.

Lemma aux_rounds (sx : bool) mx ex lx x : 0 <= mx -> at_pos x ex (shr_record_of_loc mx lx) ->
  ex <= fx (Zdigits2 mx + ex) -> (x <= 2 ^ 1023)%Q ->
  rounds (if sx then - x else x)%Q (binary_round_aux fprec femax sx mx ex lx).
Proof.
  intros h1 h2 h3 h4. destruct (round_aux_near sx lx h1 h2 h3) as (R & e & (a1 & a2 & a3 & a4 & a5) & h).
  pose proof (pow2_pos e) as pe.
  destruct h as [f1 f2].
  { destruct a5 as [->|a5].
    - apply Qle_lt_trans with (inject_Z (2 ^ 53) * 2 ^ (-1074))%Q.
      + apply Qmult_le_compat_r; [rewrite <- Zle_Qle; lia|lra].
      + reflexivity.
    - assert (he : e + 52 <= 1023) by (apply pow2_le_inv; lra).
      assert (hp : (2 ^ e <= 2 ^ 971)%Q) by (apply pow2_le; lia).
      assert (h5 : (2 ^ 1023 + (1 # 2) * 2 ^ 971 < 2 ^ 1024)%Q) by reflexivity. lra. }
  split; [exact f1|]. exists (if sx then - R else R), e. rewrite f2.
  split; [destruct sx; lia|]. split; [exact a2|]. split; [reflexivity|].
  destruct sx.
  - rewrite inject_Z_opp. split; [lra|]. split; [lra|]. destruct a5 as [a5|a5]; [auto|]. right. right. lra.
  - split; [lra|]. split; [lra|]. destruct a5 as [a5|a5]; auto.
Qed.

Lemma round_rounds (sx : bool) m e : (inject_Z (Zpos m) * 2 ^ e <= 2 ^ 1023)%Q ->
  rounds (inject_Z (if sx then Zneg m else Zpos m) * 2 ^ e) (binary_round fprec femax sx m e).
Proof.
  intros hb. unfold binary_round. set (f := fx (Zpos (digits2_pos m) + e)).
  assert (ha : exists mz ez, shl_align m e f = (mz, ez) /\ ez <= f /\ ez <= e /\ Zpos mz = Zpos m * 2 ^ (e - ez)).
  { destruct (Z_le_gt_dec e f) as [h|h].
    - exists m, e. split; [apply shl_align_id; lia|]. rewrite Z.sub_diag, Z.pow_0_r. lia.
    - destruct (@shl_align_spec m e f) as [h1 h2]; [lia|].
      exists (fst (shl_align m e f)), f. split; [destruct (shl_align m e f); cbn in *; congruence|]. lia. }
  destruct ha as (mz & ez & -> & hez & hee & hmz).
  assert (hx : (inject_Z (Zpos m) * 2 ^ e == inject_Z (Zpos mz) * 2 ^ ez)%Q).
  { apply (@scaled_eq _ e _ ez ez); try lia. rewrite Z.sub_diag, Z.pow_0_r. lia. }
  apply rounds_ext with (if sx then - (inject_Z (Zpos m) * 2 ^ e) else inject_Z (Zpos m) * 2 ^ e)%Q.
  { destruct sx; [|reflexivity]. rewrite neg_val. reflexivity. }
  apply aux_rounds; [lia| | |exact hb].
  - exists 0%Q. split; [reflexivity|]. cbn [shr_record_of_loc shr_m]. rewrite hx, Qplus_0_r. reflexivity.
  - cbn [Zdigits2]. rewrite (@digits_shift mz m (e - ez)) by (auto; lia).
    replace (Zpos (digits2_pos m) + (e - ez) + ez) with (Zpos (digits2_pos m) + e) by lia. exact hez.
Qed.

(** finite numbers are rounded to themselves *)
Lemma rounds_refl y : f64_finite y -> rounds (f64_val y) y.
Proof.
  intros hf. split; [exact hf|]. pose proof (pow2_pos (-1074)) as pz. destruct y as [s|s| |s m e]; try contradiction.
  - exists 0, (-1074). cbn [f64_val]. change (inject_Z 0) with 0%Q. rewrite Qmult_0_l.
    split; [lia|]. split; [lia|]. split; [reflexivity|]. split; [lra|]. split; [lra|]. auto.
  - cbn [f64_finite] in hf. apply bounded_digits in hf as (h1 & h2 & h3). pose proof (pow2_pos e) as pe.
    pose proof (digits_upper m) as u. pose proof (digits_lower m) as l.
    assert (u' : Zpos m < 2 ^ 53). { apply Z.lt_le_trans with (1 := u). apply Z.pow_le_mono_r; lia. }
    exists (if s then Zneg m else Zpos m), e. cbn [f64_val]. split; [destruct s; lia|]. split; [exact h2|].
    split; [reflexivity|]. split; [lra|]. split; [lra|].
    destruct (Z.eq_dec e (-1074)) as [|hn]; [auto|]. rewrite h3 in l by lia. right.
    assert (h : (2 ^ (e + 52) <= inject_Z (Zpos m) * 2 ^ e)%Q).
    { rewrite Z.add_comm, Qpower_plus by discriminate. change (2 ^ 52)%Q with (inject_Z (2 ^ 52)).
      apply Qmult_le_compat_r; [|lra]. rewrite <- Zle_Qle. exact l. }
    destruct s; [right|left; exact h]. rewrite neg_val. lra.
Qed.

Lemma normalize_rounds z e sz : (- 2 ^ 1023 <= inject_Z z * 2 ^ e)%Q -> (inject_Z z * 2 ^ e <= 2 ^ 1023)%Q ->
  rounds (inject_Z z * 2 ^ e) (binary_normalize fprec femax z e sz).
Proof.
  intros h1 h2. destruct z as [|m|m]; cbn [binary_normalize].
  - apply rounds_ext with (f64_val (S754_zero sz)); [|apply rounds_refl; exact I].
    cbn [f64_val]. change (inject_Z 0) with 0%Q. rewrite Qmult_0_l. reflexivity.
  - apply (@round_rounds false). exact h2.
  - apply (@round_rounds true). rewrite neg_val in h1. lra.
Qed.

(** ** the operations *)
Lemma add_rounds a b : f64_finite a -> f64_finite b ->
  (- 2 ^ 1023 <= f64_val a + f64_val b)%Q -> (f64_val a + f64_val b <= 2 ^ 1023)%Q ->
  rounds (f64_val a + f64_val b) (SFadd fprec femax a b).
Proof.
  intros ha hb h1 h2. destruct a as [sa|sa| |sa ma ea]; try contradiction;
    destruct b as [sb|sb| |sb mb eb]; try contradiction; cbn [SFadd].
  - destruct (Bool.eqb sa sb); cbn [f64_val]; (eapply rounds_ext; [|apply rounds_refl; exact I]); cbn [f64_val]; lra.
  - eapply rounds_ext; [|apply rounds_refl; exact hb]. cbn [f64_val]. lra.
  - eapply rounds_ext; [|apply rounds_refl; exact ha]. cbn [f64_val]. lra.
  - set (h := Z.min ea eb).
    destruct (@shl_align_spec ma ea h) as [e1 _]; [lia|]. destruct (@shl_align_spec mb eb h) as [e2 _]; [lia|].
    rewrite e1, e2. clear e1 e2.
    assert (E : forall s m e, h <= e -> (inject_Z (cond_Zopp s (Zpos m * 2 ^ (e - h))) * 2 ^ h ==
                                        f64_val (S754_finite s m e))%Q).
    { intros s m e he. cbn [f64_val]. apply scaled_eq with (h := h); try lia. rewrite Z.sub_diag, Z.pow_0_r, Z.mul_1_r.
      destruct s; cbn [cond_Zopp]; [change (Zneg m) with (- Zpos m)|]; lia. }
    pose proof (E sa ma ea ltac:(lia)) as ea'. pose proof (E sb mb eb ltac:(lia)) as eb'. clear E.
    assert (es : (inject_Z (cond_Zopp sa (Zpos ma * 2 ^ (ea - h)) + cond_Zopp sb (Zpos mb * 2 ^ (eb - h))) * 2 ^ h ==
      f64_val (S754_finite sa ma ea) + f64_val (S754_finite sb mb eb))%Q).
    { rewrite inject_Z_plus, Qmult_plus_distr_l, ea', eb'. reflexivity. }
    eapply rounds_ext; [exact es|]. apply normalize_rounds; rewrite es; assumption.
Qed.

Lemma finite_opp a : f64_finite a -> f64_finite (SFopp a).
Proof. destruct a; exact (fun h => h). Qed.
Lemma val_opp a : (f64_val (SFopp a) == - f64_val a)%Q.
Proof.
  destruct a as [s|s| |s m e]; cbn [SFopp f64_val]; try reflexivity. destruct s; cbn [negb]; rewrite neg_val; lra.
Qed.

Lemma sub_add a b : f64_finite a -> f64_finite b -> SFsub fprec femax a b = SFadd fprec femax a (SFopp b).
Proof.
  intros ha hb. destruct a as [sa|sa| |sa ma ea]; try contradiction;
    destruct b as [sb|sb| |sb mb eb]; try contradiction; cbn [SFadd SFsub SFopp]; try reflexivity.
  f_equal. destruct sb; cbn [cond_Zopp negb]; lia.
Qed.

Lemma sub_rounds a b : f64_finite a -> f64_finite b ->
  (- 2 ^ 1023 <= f64_val a - f64_val b)%Q -> (f64_val a - f64_val b <= 2 ^ 1023)%Q ->
  rounds (f64_val a - f64_val b) (SFsub fprec femax a b).
Proof.
  intros ha hb h1 h2. rewrite sub_add by assumption.
  assert (e : (f64_val a + f64_val (SFopp b) == f64_val a - f64_val b)%Q) by (rewrite val_opp; ring).
  eapply rounds_ext; [exact e|]. apply add_rounds; auto using finite_opp; rewrite e; assumption.
Qed.

Lemma digits_bounds m : 0 < m -> 2 ^ (Zdigits2 m - 1) <= m < 2 ^ Zdigits2 m.
Proof. destruct m as [|m|m]; try lia. intros _. cbn [Zdigits2]. split; [apply digits_lower|apply digits_upper]. Qed.

Lemma new_location_at q r m : 0 < m -> 0 <= r < m -> 
  at_pos ((inject_Z (q * m + r)) / inject_Z m) 0 (shr_record_of_loc q (new_location m r)).
Proof.
  intros hm hr.
  assert (hm' : (0 < inject_Z m)%Q) by (change 0%Q with (inject_Z 0); rewrite <- Zlt_Qlt; exact hm).
  exists (inject_Z r / inject_Z m)%Q. split.
  2:{ rewrite record_of_loc, inject_Z_plus, inject_Z_mult. change (2 ^ 0)%Q with 1%Q. field. lra. }
  assert (hr0 : (0 <= inject_Z r)%Q) by (change 0%Q with (inject_Z 0); rewrite <- Zle_Qle; lia).
  assert (hr1 : (inject_Z r < inject_Z m)%Q) by (rewrite <- Zlt_Qlt; lia).
  assert (L0 : r = 0 -> (inject_Z r / inject_Z m == 0)%Q).
  { intros ->. unfold Qdiv. apply Qmult_0_l. }
  assert (L1 : 0 < r -> (0 < inject_Z r / inject_Z m)%Q).
  { intros h. apply Qlt_shift_div_l; [exact hm'|]. rewrite Qmult_0_l. change 0%Q with (inject_Z 0). rewrite <- Zlt_Qlt. exact h. }
  assert (L2 : (inject_Z r / inject_Z m < 1)%Q) by (apply Qlt_shift_div_r; [exact hm'|lra]).
  assert (L3 : 2 * r < m -> (inject_Z r / inject_Z m < 1 # 2)%Q).
  { intros h. apply Qlt_shift_div_r; [exact hm'|]. rewrite Zlt_Qlt, inject_Z_mult in h. change (inject_Z 2) with 2%Q in h. lra. }
  assert (L4 : 2 * r = m -> (inject_Z r / inject_Z m == 1 # 2)%Q).
  { intros h. rewrite <- h, inject_Z_mult. change (inject_Z 2) with 2%Q.
    assert (0 < r) by lia. assert (~ (inject_Z r == 0)%Q). { change 0%Q with (inject_Z 0). rewrite inject_Z_injective. lia. }
    field. assumption. }
  assert (L5 : m < 2 * r -> ((1 # 2) < inject_Z r / inject_Z m)%Q).
  { intros h. apply Qlt_shift_div_l; [exact hm'|]. rewrite Zlt_Qlt, inject_Z_mult in h. change (inject_Z 2) with 2%Q in h. lra. }
  unfold new_location. destruct (Z.even m) eqn:ev.
  - unfold new_location_even. destruct (Zeq_bool r 0) eqn:e0.
    + apply Zeq_bool_eq in e0. exact (L0 e0).
    + apply Zeq_bool_neq in e0. destruct (2 * r ?= m) eqn:ec.
      * apply Z.compare_eq in ec. exact (L4 ec).
      * rewrite Z.compare_lt_iff in ec. split; [apply L1; lia|apply L3; exact ec].
      * rewrite Z.compare_gt_iff in ec. split; [apply L5; exact ec|exact L2].
  - unfold new_location_odd. destruct (Zeq_bool r 0) eqn:e0.
    + apply Zeq_bool_eq in e0. exact (L0 e0).
    + apply Zeq_bool_neq in e0.
      assert (hodd : 2 * r <> m) by (intros h; rewrite <- h, Z.even_mul in ev; discriminate ev).
      destruct (2 * r + 1 ?= m) eqn:ec.
      * apply Z.compare_eq in ec. split; [apply L1; lia|apply L3; lia].
      * rewrite Z.compare_lt_iff in ec. split; [apply L1; lia|apply L3; lia].
      * rewrite Z.compare_gt_iff in ec. split; [apply L5; lia|exact L2].
Qed.

Lemma at_pos_scale x e mrs : at_pos x 0 mrs -> at_pos (x * 2 ^ e) e mrs.
Proof. intros (f & hf & hx). exists f. split; [exact hf|]. rewrite hx. change (2 ^ 0)%Q with 1%Q. rewrite Qmult_1_r. reflexivity. Qed.

Lemma at_pos_ext x x' e mrs : (x == x')%Q -> at_pos x e mrs -> at_pos x' e mrs.
Proof. intros h (f & hf & hx). exists f. split; [exact hf|]. rewrite <- h. exact hx. Qed.

Lemma div_core m1 e1 m2 e2 : 0 < m1 -> 0 < m2 ->
  let '(q, e, l) := SFdiv_core_binary fprec femax m1 e1 m2 e2 in
  0 <= q /\ at_pos ((inject_Z m1 * 2 ^ e1) / (inject_Z m2 * 2 ^ e2)) e (shr_record_of_loc q l) /\ e <= fx (Zdigits2 q + e).
Proof.
  intros h1 h2. unfold SFdiv_core_binary.
  set (d := Zdigits2 m1 + e1 - (Zdigits2 m2 + e2)). set (e := Z.min (fx d) (e1 - e2)). set (s := e1 - e2 - e).
  assert (hs : 0 <= s) by (unfold s, e; lia).
  assert (em : match s with 0 => m1 | Zpos _ => Z.shiftl m1 s | Zneg _ => 0 end = m1 * 2 ^ s).
  { destruct s as [|p|p] eqn:es; [rewrite Z.pow_0_r; lia|rewrite Z.shiftl_mul_pow2 by lia; reflexivity|lia]. }
  rewrite em. clear em. set (m' := m1 * 2 ^ s).
  assert (hp : 0 < 2 ^ s) by (apply Z.pow_pos_nonneg; lia). assert (hm' : 0 < m') by (unfold m'; nia).
  pose proof (Z_div_mod m' m2 ltac:(lia)) as hdm. destruct (Z.div_eucl m' m2) as [q r]. destruct hdm as [hq hr].
  assert (hq0 : 0 <= q). { destruct (Z_lt_le_dec q 0); [exfalso; nia|assumption]. }
  split; [exact hq0|]. split.
  - apply at_pos_ext with (inject_Z (q * m2 + r) / inject_Z m2 * 2 ^ e)%Q; [|apply at_pos_scale, new_location_at; auto].
    replace (q * m2 + r) with m' by lia. unfold m'. rewrite inject_Z_mult, <- (@pow2_inject s hs).
    assert (hz : ~ (inject_Z m2 == 0)%Q) by (change 0%Q with (inject_Z 0); rewrite inject_Z_injective; lia).
    assert (hpe : forall z, ~ (2 ^ z == 0)%Q) by (intros z; pose proof (pow2_pos z); lra).
    assert (hee : (2 ^ e1 == 2 ^ s * 2 ^ e * 2 ^ e2)%Q).
    { rewrite <- !Qpower_plus by discriminate. replace (s + e + e2) with e1 by (unfold s; lia). reflexivity. }
    rewrite hee. field. split; [apply hpe|exact hz].
  - assert (hd : d <= Zdigits2 q + e).
    { destruct (Z_le_gt_dec (d - e) 0) as [hde|hde].
      - assert (0 <= Zdigits2 q) by (destruct q; cbn [Zdigits2]; lia). lia.
      - (* q >= 2^(d-e-1) *)
        pose proof (digits_bounds h1) as b1. pose proof (digits_bounds h2) as b2.
        assert (hq1 : 2 ^ (d - e - 1) <= q).
        { assert (hk : Zdigits2 m1 - 1 + s = (d - e - 1) + Zdigits2 m2) by (unfold d, s; lia).
          assert (hm1 : 2 ^ (d - e - 1) * 2 ^ Zdigits2 m2 <= m').
          { rewrite <- Z.pow_add_r; [|lia|destruct m2; cbn [Zdigits2]; lia]. rewrite <- hk.
            rewrite Z.pow_add_r; [unfold m'; nia| |lia]. destruct m1; cbn [Zdigits2]; lia. }
          assert (hp1 : 0 < 2 ^ (d - e - 1)) by (apply Z.pow_pos_nonneg; lia).
          assert (hlt : 2 ^ (d - e - 1) * m2 < (q + 1) * m2) by nia. nia. }
        assert (hq2 : 0 < q). { assert (0 < 2 ^ (d - e - 1)) by (apply Z.pow_pos_nonneg; lia). lia. }
        pose proof (digits_bounds hq2) as b3.
        assert (h : 2 ^ (d - e - 1) < 2 ^ Zdigits2 q) by lia. apply Z.pow_lt_mono_r_iff in h; [lia|lia|].
        destruct q; cbn [Zdigits2]; lia. }
    apply Z.le_trans with (fx d); [unfold e; lia|]. rewrite !fx_def. lia.
Qed.

Lemma div_rounds a b : f64_finite a -> f64_finite b -> ~ (f64_val b == 0)%Q ->
  (- 2 ^ 1023 <= f64_val a / f64_val b)%Q -> (f64_val a / f64_val b <= 2 ^ 1023)%Q ->
  rounds (f64_val a / f64_val b) (SFdiv fprec femax a b).
Proof.
  intros ha hb hn h1 h2. destruct b as [sb|sb| |sb mb eb]; try contradiction.
  { exfalso. apply hn. reflexivity. }
  destruct a as [sa|sa| |sa ma ea]; try contradiction; cbn [SFdiv].
  - eapply rounds_ext; [|apply rounds_refl; exact I]. cbn [f64_val]. unfold Qdiv. rewrite Qmult_0_l. reflexivity.
  - pose proof (@div_core (Zpos ma) ea (Zpos mb) eb ltac:(lia) ltac:(lia)) as hd.
    destruct (SFdiv_core_binary fprec femax (Zpos ma) ea (Zpos mb) eb) as [[q e] l]. destruct hd as (d1 & d2 & d3).
    pose proof (f64_pos ma ea) as pa. pose proof (f64_pos mb eb) as pb.
    set (A := (inject_Z (Zpos ma) * 2 ^ ea)%Q) in *. set (B := (inject_Z (Zpos mb) * 2 ^ eb)%Q) in *.
    assert (hv : (f64_val (S754_finite sa ma ea) / f64_val (S754_finite sb mb eb) == if xorb sa sb then - (A / B) else A / B)%Q).
    { cbn [f64_val]. destruct sa, sb; cbn [xorb]; rewrite ?neg_val; fold A B; field; lra. }
    eapply rounds_ext; [symmetry; exact hv|]. apply aux_rounds; auto.
    rewrite hv in h1, h2. destruct (xorb sa sb); lra.
Qed.

(** ** rounding never jumps over a representable number *)
Lemma rounds_le x y a : rounds x y -> f64_finite a -> (x <= f64_val a)%Q -> (f64_val y <= f64_val a)%Q.
Proof.
  intros (_ & R & e & hR & he & hv & h1 & h2 & h3) ha hx.
  destruct (rounds_refl a ha) as (_ & G & g & hG & hg & hva & _ & _ & hg3).
  destruct (Qlt_le_dec (f64_val a) (f64_val y)) as [hlt|]; [exfalso|assumption].
  pose proof (pow2_pos e) as pe. pose proof (pow2_pos g) as pg.
  destruct (Z_le_gt_dec e g) as [hc|hc].
  - (* both on the grid of e *)
    assert (hva' : (f64_val a == inject_Z (G * 2 ^ (g - e)) * 2 ^ e)%Q).
    { rewrite hva. apply (@scaled_eq _ g _ e e); try lia. rewrite Z.sub_diag, Z.pow_0_r. lia. }
    rewrite hv, hva' in hlt. apply Qmult_lt_r in hlt; [|exact pe]. rewrite <- Zlt_Qlt in hlt.
    assert (hle : G * 2 ^ (g - e) + 1 <= R) by lia. rewrite Zle_Qle, inject_Z_plus in hle. change (inject_Z 1) with 1%Q in hle.
    assert ((inject_Z (G * 2 ^ (g - e)) + 1) * 2 ^ e <= inject_Z R * 2 ^ e)%Q by (apply Qmult_le_compat_r; lra).
    lra.
  - (* |a| < |x| *)
    assert (ha2 : (- 2 ^ (e + 52) <= f64_val a)%Q /\ (f64_val a <= 2 ^ (e + 52))%Q).
    { assert (hb : (inject_Z (2 ^ 53) * 2 ^ g <= 2 ^ (e + 52))%Q).
      { change (inject_Z (2 ^ 53)) with (2 ^ 53)%Q. rewrite <- Qpower_plus by discriminate. apply pow2_le. lia. }
      rewrite hva. destruct hG as [hG1 hG2]. rewrite Zle_Qle in hG1, hG2. rewrite inject_Z_opp in hG1. split; nra. }
    assert (hyx : (f64_val a < x \/ f64_val y <= f64_val a \/ x == f64_val a /\ x == 2 ^ (e + 52))%Q).
    { destruct h3 as [->|[h3|h3]]; [lia| |].
      - destruct (Qlt_le_dec (f64_val a) x) as [|h]; [auto|]. right. right. lra.
      - right. left.
        assert (hR2 : (inject_Z R * 2 ^ e <= (- inject_Z (2 ^ 52) + (1 # 2)) * 2 ^ e)%Q).
        { rewrite <- hv. rewrite Z.add_comm, Qpower_plus in h3 by discriminate. change (2 ^ 52)%Q with (inject_Z (2 ^ 52)) in h3. lra. }
        apply Qmult_le_r in hR2; [|exact pe].
        assert (hR3 : R <= - 2 ^ 52). { assert (R < - 2 ^ 52 + 1); [|lia]. rewrite Zlt_Qlt, inject_Z_plus, inject_Z_opp. change (inject_Z 1) with 1%Q. lra. }
        rewrite Zle_Qle, inject_Z_opp in hR3.
        assert (inject_Z R * 2 ^ e <= - 2 ^ (e + 52))%Q; [|lra].
        rewrite Z.add_comm, Qpower_plus by discriminate. change (2 ^ 52)%Q with (inject_Z (2 ^ 52)). nra. }
    destruct hyx as [h|[h|[h h']]]; [lra|lra|].
    (* x is exactly 2^(e+52): then y = x *)
    rewrite h' in h1, h2. rewrite Z.add_comm, Qpower_plus in h1, h2, h' by discriminate.
    change (2 ^ 52)%Q with (inject_Z (2 ^ 52)) in *. rewrite hv in h1, h2, hlt.
    assert (hR3 : R <= 2 ^ 52).
    { assert (R < 2 ^ 52 + 1); [|lia]. rewrite Zlt_Qlt, inject_Z_plus. change (inject_Z 1) with 1%Q.
      assert ((inject_Z R - inject_Z (2 ^ 52)) * 2 ^ e <= (1 # 2) * 2 ^ e)%Q by lra.
      assert (inject_Z R - inject_Z (2 ^ 52) <= 1 # 2)%Q by (apply Qmult_le_r in H; [exact H|exact pe]). lra. }
    rewrite Zle_Qle in hR3. assert (inject_Z R * 2 ^ e <= inject_Z (2 ^ 52) * 2 ^ e)%Q by (apply Qmult_le_compat_r; lra). lra.
Qed.

Lemma rounds_opp x y : rounds x y -> rounds (- x) (SFopp y).
Proof.
  intros (hf & R & e & hR & he & hv & h1 & h2 & h3). split; [apply finite_opp; exact hf|].
  exists (- R), e. rewrite val_opp, inject_Z_opp. split; [lia|]. split; [exact he|]. split; [rewrite hv; ring|].
  split; [lra|]. split; [lra|]. destruct h3 as [h3|[h3|h3]]; [auto|right; right; lra|right; left; lra].
Qed.

Lemma rounds_ge x y a : rounds x y -> f64_finite a -> (f64_val a <= x)%Q -> (f64_val a <= f64_val y)%Q.
Proof.
  intros h ha hx. apply rounds_opp in h. pose proof (rounds_le (SFopp a) h (finite_opp _ ha)) as hl.
  rewrite !val_opp in hl. lra.
Qed.

(** ** relative error *)
Definition on_min_grid (x : Q) : Prop := exists z, (x == inject_Z z * 2 ^ (-1074))%Q.

Lemma finite_min_grid a : f64_finite a -> on_min_grid (f64_val a).
Proof.
  intros h. destruct (rounds_refl a h) as (_ & R & e & _ & he & hv & _). exists (R * 2 ^ (e + 1074)). rewrite hv.
  apply (@scaled_eq _ e _ (-1074) (-1074)); try lia. replace (e - -1074) with (e + 1074) by lia. replace (-1074 - -1074) with 0 by lia.
  rewrite Z.pow_0_r. lia.
Qed.

Lemma min_grid_add a b : on_min_grid a -> on_min_grid b -> on_min_grid (a + b).
Proof. intros (x & hx) (y & hy). exists (x + y). rewrite hx, hy, inject_Z_plus. ring. Qed.

Lemma rounds_error x y : rounds x y -> on_min_grid x ->
  (f64_val y - x <= 2 ^ (-53) * x \/ f64_val y - x <= - (2 ^ (-53) * x))%Q /\
  (- (2 ^ (-53) * x) <= f64_val y - x \/ 2 ^ (-53) * x <= f64_val y - x)%Q.
Proof.
  intros (hf & R & e & hR & he & hv & h1 & h2 & h3) (z & hz). pose proof (pow2_pos e) as pe.
  assert (hh : ((1 # 2) * 2 ^ e == 2 ^ (-53) * 2 ^ (e + 52))%Q).
  { rewrite <- Qpower_plus by discriminate. replace (-53 + (e + 52)) with (e + -1) by lia. rewrite Qpower_plus by discriminate.
    change (2 ^ (-1))%Q with (1 # 2)%Q. ring. }
  assert (pp : (0 < 2 ^ (-53))%Q) by reflexivity.
  destruct h3 as [->|[h3|h3]].
  - (* exact *)
    assert (ex : (f64_val y == x)%Q).
    { rewrite hv, hz in *. set (u := (2 ^ (-1074))%Q) in *.
      assert (a1 : (inject_Z (R - z) * u <= (1 # 2) * u)%Q).
      { unfold Z.sub. rewrite inject_Z_plus, inject_Z_opp. lra. }
      assert (a2 : ((- (1 # 2)) * u <= inject_Z (R - z) * u)%Q).
      { unfold Z.sub. rewrite inject_Z_plus, inject_Z_opp. lra. }
      apply Qmult_le_r in a1; [|exact pe]. apply Qmult_le_r in a2; [|exact pe].
      assert (R - z < 1) by (rewrite Zlt_Qlt; change (inject_Z 1) with 1%Q; lra).
      assert (-1 < R - z) by (rewrite Zlt_Qlt; change (inject_Z (-1)) with (-1)%Q; lra).
      replace R with z by lia. reflexivity. }
    rewrite ex. destruct (Qlt_le_dec x 0) as [hx|hx]; (split; [|]); try (left; nra); right; nra.
  - assert (2 ^ (-53) * 2 ^ (e + 52) <= 2 ^ (-53) * x)%Q by (rewrite !(Qmult_comm (2 ^ (-53))); apply Qmult_le_compat_r; lra).
    split; left; lra.
  - assert (2 ^ (-53) * 2 ^ (e + 52) <= 2 ^ (-53) * (- x))%Q by (rewrite !(Qmult_comm (2 ^ (-53))); apply Qmult_le_compat_r; lra).
    split; right; lra.
Qed.
