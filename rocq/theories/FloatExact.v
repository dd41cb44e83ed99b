(** FloatExact.v -- binary64 adds, subtracts and compares multiples of [2^g] exactly, as long as
    they do not exceed [2^53 * 2^g] in magnitude: [Repr] (Bounded.v) with [B = 2^53]. *)
From Coq Require Import ZArith QArith Qpower Lqa Lia.
From Coq.Floats Require Import SpecFloat.
From Verif Require Import Base Num M_Mat Inst Spec Laws FloatFacts Bounded.
Set Implicit Arguments.
Open Scope Z_scope.

(** ** integers scaled by powers of two *)
Lemma pow2_inject k : 0 <= k -> (2 ^ k == inject_Z (2 ^ k))%Q.
Proof. intros h. change (2 ^ k)%Q with (inject_Z 2 ^ k)%Q. symmetry. apply Zpower_Qpower. auto. Qed.

Lemma scaled_eq a e b g h : h <= e -> h <= g ->
  (inject_Z a * 2 ^ e == inject_Z b * 2 ^ g)%Q <-> a * 2 ^ (e - h) = b * 2 ^ (g - h).
Proof.
  intros h1 h2.
  assert (E : forall x k, h <= k -> (inject_Z x * 2 ^ k == inject_Z (x * 2 ^ (k - h)) * 2 ^ h)%Q).
  { intros x k hk. replace k with ((k - h) + h) at 1 by lia. rewrite Qpower_plus by discriminate.
    rewrite pow2_inject by lia. rewrite inject_Z_mult. ring. }
  rewrite (E a e h1), (E b g h2). split.
  - intros hq. apply Qmult_inj_r in hq; [|pose proof (pow2_pos h); lra]. apply inject_Z_injective. exact hq.
  - intros ->. reflexivity.
Qed.

(** ** number of binary digits *)
Lemma digits_log2 m : Zpos (digits2_pos m) = Z.log2 (Zpos m) + 1.
Proof.
  pose proof (digits_upper m) as u. pose proof (digits_lower m) as l.
  rewrite (Z.log2_unique (Zpos m) (Zpos (digits2_pos m) - 1)); [lia|lia|].
  split; [exact l|]. replace (Z.succ (Zpos (digits2_pos m) - 1)) with (Zpos (digits2_pos m)) by lia. exact u.
Qed.

Lemma digits_shift m z k : 0 <= k -> Zpos m = Zpos z * 2 ^ k -> Zpos (digits2_pos m) = Zpos (digits2_pos z) + k.
Proof. intros hk e. rewrite !digits_log2, e, Z.log2_mul_pow2 by lia. lia. Qed.

(** ** shifts *)
Lemma shr_1_even a : shr_1 {| shr_m := 2 * a; shr_r := false; shr_s := false |} =
  {| shr_m := a; shr_r := false; shr_s := false |}.
Proof. destruct a; reflexivity. Qed.

Lemma shr_exact p : forall a, SpecFloat.iter_pos shr_1 p {| shr_m := a * 2 ^ Zpos p; shr_r := false; shr_s := false |} =
  {| shr_m := a; shr_r := false; shr_s := false |}.
Proof.
  induction p as [p IH|p IH|]; intros a; cbn [SpecFloat.iter_pos].
  - replace (a * 2 ^ Zpos p~1) with (2 * (a * 2 ^ Zpos p * 2 ^ Zpos p)); [rewrite shr_1_even, !IH; reflexivity|].
    rewrite (Pos2Z.inj_xI p). rewrite Z.pow_add_r, Z.pow_1_r, Z.pow_twice_r by lia. ring.
  - replace (a * 2 ^ Zpos p~0) with (a * 2 ^ Zpos p * 2 ^ Zpos p); [rewrite !IH; reflexivity|].
    rewrite (Pos2Z.inj_xO p). rewrite Z.pow_twice_r. ring.
  - replace (a * 2 ^ 1) with (2 * a) by (rewrite Z.pow_1_r; ring). apply shr_1_even.
Qed.

Lemma shl_align_spec mx ex e' : e' <= ex -> Zpos (fst (shl_align mx ex e')) = Zpos mx * 2 ^ (ex - e') /\
  snd (shl_align mx ex e') = e'.
Proof.
  intros h. unfold shl_align. destruct (e' - ex) as [|p|p] eqn:e; [| lia |].
  - replace (ex - e') with 0 by lia. cbn [fst snd]. split; lia.
  - cbn [fst snd]. replace (ex - e') with (Zpos p) by lia. rewrite shift_pos_correct.
    rewrite <- Z.pow_pos_fold. split; lia.
Qed.

Lemma shl_align_id mx ex e' : ex <= e' -> shl_align mx ex e' = (mx, ex).
Proof. intros h. unfold shl_align. destruct (e' - ex) as [|p|p] eqn:e; auto. lia. Qed.

(** ** rounding a number that needs none *)
Definition f64_grid (g : Z) (a : f64) (z : Z) : Prop := f64_finite a /\ (f64_val a == inject_Z z * 2 ^ g)%Q.

Local Notation fx := (fexp fprec femax).

Lemma fx_def e : fx e = Z.max (e - 53) (-1074).
Proof. reflexivity. Qed.

Lemma round_exact s m e z g : (inject_Z (Zpos m) * 2 ^ e == inject_Z (Zpos z) * 2 ^ g)%Q ->
  Zpos z < 2 ^ 53 -> -1074 <= g <= 971 ->
  f64_grid g (binary_round fprec femax s m e) (if s then Zneg z else Zpos z).
Proof.
  intros hv hz hg.
  set (f := fx (Zpos (digits2_pos z) + g)).
  assert (hdz : Zpos (digits2_pos z) <= 53).
  { rewrite digits_log2. assert (Z.log2 (Zpos z) < 53) by (apply Z.log2_lt_pow2; lia). lia. }
  assert (hf : -1074 <= f <= g) by (unfold f; rewrite fx_def; lia).
  (** any scaling of [z] by at most [2^g] *)
  assert (hd : forall m' e', e' <= g -> Zpos m' = Zpos z * 2 ^ (g - e') -> Zpos (digits2_pos m') + e' = Zpos (digits2_pos z) + g).
  { intros m' e' h1 h2. rewrite (@digits_shift m' z (g - e')); lia. }
  assert (hde : Zpos (digits2_pos m) + e = Zpos (digits2_pos z) + g).
  { destruct (Z_le_gt_dec e g) as [h|h].
    - apply hd; auto. apply (@scaled_eq (Zpos m) e (Zpos z) g e) in hv; try lia.
      rewrite Z.sub_diag, Z.pow_0_r, Z.mul_1_r in hv. exact hv.
    - apply (@scaled_eq (Zpos m) e (Zpos z) g g) in hv; try lia.
      rewrite Z.sub_diag, Z.pow_0_r, Z.mul_1_r in hv.
      rewrite (@digits_shift z m (e - g)); lia. }
  (** the aligned mantissa *)
  assert (ha : exists mz ez, shl_align m e f = (mz, ez) /\ ez <= f /\ Zpos mz = Zpos z * 2 ^ (g - ez)).
  { destruct (Z_le_gt_dec e f) as [h|h].
    - exists m, e. split; [apply shl_align_id; lia|]. split; [lia|].
      apply (@scaled_eq (Zpos m) e (Zpos z) g e) in hv; try lia.
      rewrite Z.sub_diag, Z.pow_0_r, Z.mul_1_r in hv. exact hv.
    - destruct (@shl_align_spec m e f) as [h1 h2]; [lia|].
      exists (fst (shl_align m e f)), f. split; [destruct (shl_align m e f); cbn in *; congruence|]. split; [lia|].
      rewrite h1. apply (@scaled_eq (Zpos m) e (Zpos z) g f) in hv; try lia. }
  destruct ha as (mz & ez & ea & hez & hmz).
  (** the mantissa of the result *)
  assert (hp : exists p, Zpos p = Zpos z * 2 ^ (g - f)).
  { exists (Z.to_pos (Zpos z * 2 ^ (g - f))). apply Z2Pos.id.
    assert (0 < 2 ^ (g - f)) by (apply Z.pow_pos_nonneg; lia). nia. }
  destruct hp as [p hp].
  assert (e1 : shr_fexp fprec femax (Zpos mz) ez loc_Exact = ({| shr_m := Zpos p; shr_r := false; shr_s := false |}, f)).
  { unfold shr_fexp, shr_record_of_loc. cbn [Zdigits2]. rewrite (hd mz ez) by (auto; lia). fold f.
    unfold shr. destruct (f - ez) as [|q|q] eqn:eq; [| |lia].
    - assert (ez = f) by lia. subst ez. rewrite hmz, <- hp. reflexivity.
    - f_equal; [|lia]. rewrite hmz. replace (Zpos z * 2 ^ (g - ez)) with (Zpos p * 2 ^ Zpos q); [apply shr_exact|].
      rewrite hp. replace (g - ez) with ((g - f) + Zpos q) by lia. rewrite Z.pow_add_r by lia. ring. }
  assert (hdp : Zpos (digits2_pos p) + f = Zpos (digits2_pos z) + g) by (apply hd; auto; lia).
  assert (e2 : shr_fexp fprec femax (Zpos p) f loc_Exact = ({| shr_m := Zpos p; shr_r := false; shr_s := false |}, f)).
  { unfold shr_fexp, shr_record_of_loc. cbn [Zdigits2]. rewrite hdp. fold f. rewrite Z.sub_diag. reflexivity. }
  assert (er : binary_round fprec femax s m e = S754_finite s p f).
  { unfold binary_round. rewrite hde. fold f. rewrite ea. unfold binary_round_aux. rewrite e1.
    cbn [shr_m loc_of_shr_record round_nearest_even]. rewrite e2. cbn [shr_m].
    replace (f <=? femax - fprec) with true; [reflexivity|]. symmetry. apply Z.leb_le. unfold femax, fprec. lia. }
  rewrite er. split.
  - cbn [f64_finite]. unfold bounded, canonical_mantissa. rewrite hdp. fold f.
    rewrite Bool.andb_true_iff. split; [apply Zeq_is_eq_bool; reflexivity|apply Z.leb_le; unfold femax, fprec; lia].
  - cbn [f64_val]. apply (@scaled_eq _ f _ g f); try lia. rewrite Z.sub_diag, Z.pow_0_r, Z.mul_1_r.
    destruct s; try change (Zneg p) with (- Zpos p); try change (Zneg z) with (- Zpos z); lia.
Qed.

Lemma round_exact_le s m e z g : (inject_Z (Zpos m) * 2 ^ e == inject_Z (Zpos z) * 2 ^ g)%Q ->
  Zpos z <= 2 ^ 53 -> -1074 <= g <= 970 ->
  f64_grid g (binary_round fprec femax s m e) (if s then Zneg z else Zpos z).
Proof.
  intros hv hz hg. destruct (Z.eq_dec (Zpos z) (2 ^ 53)) as [hq|hq]; [|apply round_exact; auto; lia].
  set (h := Z.to_pos (2 ^ 52)). assert (hh : Zpos h = 2 ^ 52) by reflexivity.
  assert (G : f64_grid (g + 1) (binary_round fprec femax s m e) (if s then Zneg h else Zpos h)).
  { apply round_exact; try lia. rewrite hv. apply (@scaled_eq _ g _ (g + 1) g); try lia.
    rewrite hq, hh. replace (g - g) with 0 by lia. replace (g + 1 - g) with 1 by lia. reflexivity. }
  destruct G as [g1 g2]. split; [exact g1|]. rewrite g2. apply (@scaled_eq _ (g + 1) _ g g); try lia.
  replace (g - g) with 0 by lia. replace (g + 1 - g) with 1 by lia.
  destruct s; [change (Zneg h) with (- Zpos h); change (Zneg z) with (- Zpos z)|]; rewrite hq, hh; reflexivity.
Qed.

Lemma normalize_exact x e z g szero : (inject_Z x * 2 ^ e == inject_Z z * 2 ^ g)%Q ->
  Z.abs z <= 2 ^ 53 -> -1074 <= g <= 970 ->
  f64_grid g (binary_normalize fprec femax x e szero) z.
Proof.
  intros hv hz hg. pose proof (pow2_pos e) as pe. pose proof (pow2_pos g) as pg.
  assert (hs : (x * 2 ^ (e - Z.min e g) = z * 2 ^ (g - Z.min e g))) by (apply scaled_eq; auto; lia).
  assert (p1 : 0 < 2 ^ (e - Z.min e g)) by (apply Z.pow_pos_nonneg; lia).
  assert (p2 : 0 < 2 ^ (g - Z.min e g)) by (apply Z.pow_pos_nonneg; lia).
  destruct x as [|m|m]; cbn [binary_normalize].
  - assert (z = 0) by nia. subst z. split; [exact I|]. cbn [f64_val]. rewrite Qmult_0_l. reflexivity.
  - destruct z as [|z|z]; [exfalso; nia| |exfalso; nia]. apply (@round_exact_le false); auto.
  - destruct z as [|z|z]; [exfalso; nia|exfalso; nia|]. apply (@round_exact_le true); auto.
    change (Zneg m) with (- Zpos m) in hv. change (Zneg z) with (- Zpos z) in hv.
    rewrite !inject_Z_opp in hv. lra.
Qed.

(** ** the operations *)
Section Grid.
  Variable g : Z.
  Hypothesis Hg : -1074 <= g <= 970.

  Lemma grid_finite a z : f64_grid g a z -> f64_finite a.
  Proof. intros h. apply h. Qed.

  Lemma grid_zero_l s y : f64_grid g (S754_zero s) y -> y = 0.
  Proof.
    intros [_ h]. cbn [f64_val] in h. pose proof (pow2_pos g) as p.
    assert (h' : (inject_Z y == 0)%Q) by nra. apply inject_Z_injective. exact h'.
  Qed.

  Lemma grid_add_core sx mx ex sy my ey x y op opq :
    (op = Z.add /\ opq = Z.add \/ op = Z.sub /\ opq = Z.sub) ->
    f64_grid g (S754_finite sx mx ex) x -> f64_grid g (S754_finite sy my ey) y -> Z.abs (opq x y) <= 2 ^ 53 ->
    f64_grid g (binary_normalize fprec femax
      (op (cond_Zopp sx (Zpos (fst (shl_align mx ex (Z.min ex ey)))))
          (cond_Zopp sy (Zpos (fst (shl_align my ey (Z.min ex ey)))))) (Z.min ex ey) false) (opq x y).
  Proof.
    intros hop [h1 hx] [h2 hy] hb. apply normalize_exact; auto.
    destruct (@shl_align_spec mx ex (Z.min ex ey)) as [e1 _]; [lia|].
    destruct (@shl_align_spec my ey (Z.min ex ey)) as [e2 _]; [lia|].
    rewrite e1, e2. clear e1 e2. cbn [f64_val] in hx, hy. set (h := Z.min ex ey) in *.
    assert (E : forall s m e, h <= e -> (inject_Z (cond_Zopp s (Zpos m * 2 ^ (e - h))) * 2 ^ h ==
                                        inject_Z (if s then Zneg m else Zpos m) * 2 ^ e)%Q).
    { intros s m e he. apply scaled_eq with (h := h); try lia. rewrite Z.sub_diag, Z.pow_0_r, Z.mul_1_r.
      destruct s; cbn [cond_Zopp]; [change (Zneg m) with (- Zpos m)|]; lia. }
    pose proof (E sx mx ex ltac:(lia)) as ex'. pose proof (E sy my ey ltac:(lia)) as ey'. clear E.
    rewrite hx in ex'. rewrite hy in ey'.
    destruct hop as [[-> ->]|[-> ->]].
    - rewrite !inject_Z_plus, !Qmult_plus_distr_l, ex', ey'. reflexivity.
    - unfold Z.sub. rewrite !inject_Z_plus, !inject_Z_opp, !Qmult_plus_distr_l.
      setoid_replace (- inject_Z (cond_Zopp sy (Zpos my * 2 ^ (ey + - h))) * 2 ^ h)%Q
        with (- (inject_Z (cond_Zopp sy (Zpos my * 2 ^ (ey + - h))) * 2 ^ h))%Q by ring.
      unfold Z.sub in ex', ey'. rewrite ex', ey'. ring.
  Qed.

  Lemma grid_add a b x y : f64_grid g a x -> f64_grid g b y -> Z.abs (x + y) <= 2 ^ 53 ->
    f64_grid g (SFadd fprec femax a b) (x + y).
  Proof.
    intros ha hb hs. destruct a as [sa|sa| |sa ma ea]; try (exfalso; exact (proj1 ha));
      destruct b as [sb|sb| |sb mb eb]; try (exfalso; exact (proj1 hb)).
    - rewrite (grid_zero_l ha), (grid_zero_l hb). cbn [SFadd]. destruct (Bool.eqb sa sb);
        (split; [exact I|cbn [f64_val]; rewrite Qmult_0_l; reflexivity]).
    - rewrite (grid_zero_l ha). exact hb.
    - rewrite (grid_zero_l hb), Z.add_0_r. exact ha.
    - cbn [SFadd]. apply grid_add_core; auto.
  Qed.

  Lemma grid_neg a x : f64_grid g a x -> f64_grid g (SFopp a) (- x).
  Proof.
    intros [h1 h2]. destruct a as [s|s| |s m e]; cbn [f64_finite] in h1; try tauto; cbn [SFopp]; split; auto.
    - rewrite inject_Z_opp. cbn [f64_val] in *. lra.
    - rewrite inject_Z_opp. cbn [f64_val] in *.
      setoid_replace (- inject_Z x * 2 ^ g)%Q with (- (inject_Z x * 2 ^ g))%Q by ring. rewrite <- h2.
      destruct s; cbn [negb]; [change (Zneg m) with (- Zpos m)|change (Zneg m) with (- Zpos m)]; rewrite inject_Z_opp; ring.
  Qed.

  Lemma grid_sub a b x y : f64_grid g a x -> f64_grid g b y -> Z.abs (x - y) <= 2 ^ 53 ->
    f64_grid g (SFsub fprec femax a b) (x - y).
  Proof.
    intros ha hb hs. destruct a as [sa|sa| |sa ma ea]; try (exfalso; exact (proj1 ha));
      destruct b as [sb|sb| |sb mb eb]; try (exfalso; exact (proj1 hb)).
    - rewrite (grid_zero_l ha), (grid_zero_l hb). cbn [SFsub]. destruct (Bool.eqb sa (negb sb));
        (split; [exact I|cbn [f64_val]; rewrite Qmult_0_l; reflexivity]).
    - rewrite (grid_zero_l ha). apply (grid_neg hb).
    - rewrite (grid_zero_l hb), Z.sub_0_r. exact ha.
    - cbn [SFsub]. apply grid_add_core; auto.
  Qed.

  Lemma grid_lt a b x y : f64_grid g a x -> f64_grid g b y -> SFltb a b = (x <? y).
  Proof.
    intros [h1 h2] [h3 h4]. apply Bool.eq_iff_eq_true. rewrite SFltb_val, h2, h4, Z.ltb_lt, Zlt_Qlt by auto.
    pose proof (pow2_pos g) as p. apply (Qmult_lt_r _ _ _ p).
  Qed.

  Lemma grid_le a b x y : f64_grid g a x -> f64_grid g b y -> SFleb a b = (x <=? y).
  Proof.
    intros [h1 h2] [h3 h4]. unfold SFleb. rewrite SFcompare_val by auto.
    pose proof (pow2_pos g) as p.
    destruct (Qcompare_spec (f64_val a) (f64_val b)) as [h|h|h]; rewrite h2, h4 in h; symmetry.
    - apply Z.leb_le. apply Qmult_inj_r in h; [|lra]. apply Z.eq_le_incl, inject_Z_injective. exact h.
    - apply Z.leb_le. apply Z.lt_le_incl. rewrite Zlt_Qlt. apply (Qmult_lt_r _ _ _ p). exact h.
    - apply Z.leb_gt. rewrite Zlt_Qlt. apply (Qmult_lt_r _ _ _ p). exact h.
  Qed.

  Theorem Repr_f64 : Repr (Lt := f64) (2 ^ 53) (f64_grid g).
  Proof.
    split; cbn [lzero ladd lsub lneg lltb lleb NumL_f64].
    - split; [exact I|]. cbn [f64_val]. rewrite Qmult_0_l. reflexivity.
    - intros. apply grid_add; auto.
    - intros. apply grid_sub; auto.
    - intros. apply grid_neg; auto.
    - intros. apply grid_lt; auto.
    - intros. apply grid_le; auto.
  Qed.
End Grid.

Lemma grid_of_Z z : Z.abs z <= 2 ^ 53 -> f64_grid 0 (f64_of_Z z) z.
Proof. intros h. apply normalize_exact; auto; [reflexivity|lia]. Qed.
