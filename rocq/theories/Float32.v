(** Float32.v -- IEEE-754 binary32, the type [f32], for dissimilarities with losses of type [f64].

    As for binary64 the operations are those of [SpecFloat]; the record keeps the two types apart.
    The conversion [f64: From<f32>] is exact.  Part 1 and part 2 follow FloatFacts.v and FloatRound.v
    with the parameters of binary32. *)
From Coq Require Import ZArith QArith Qpower Qround Lqa Lia.
From Coq.Floats Require Import SpecFloat.
From Verif Require Import Base Num M_Mat Inst Spec Laws FloatFacts FloatExact FloatRound FloatSil FloatMsc Term TermFloat.
Set Implicit Arguments.
Open Scope Q_scope.

Definition sprec : Z := 24%Z.
Definition semax : Z := 128%Z.
Record f32 := F32 { sf32 : spec_float }.

Global Instance NumN_f32 : NumN f32 := {|
  nzero := F32 (S754_zero false); nadd := fun a b => F32 (SFadd sprec semax (sf32 a) (sf32 b));
  nltb := fun a b => SFltb (sf32 a) (sf32 b); neqb := fun a b => SFeqb (sf32 a) (sf32 b);
  nis_zero := fun a => SFeqb (S754_zero false) (sf32 a)
|}.

(** [f64: From<f32>] *)
Definition widen (x : spec_float) : f64 :=
  match x with
  | S754_finite s m e => binary_normalize fprec femax (if s then Zneg m else Zpos m) e false
  | y => y
  end.
Global Instance FromN_f32_f64 : FromN f32 f64 := {| lfrom := fun x => widen (sf32 x) |}.

(** neither NaN nor infinite; mantissa and exponent are those of a binary32 number *)
Definition sf_finite (x : spec_float) : Prop :=
  match x with
  | S754_zero _ => True
  | S754_finite _ m e => bounded sprec semax m e = true
  | _ => False
  end.

(** ** comparison *)
Lemma bounded_digits32 m e : bounded sprec semax m e = true ->
  (Zpos (digits2_pos m) <= 24 /\ -149 <= e /\ (-149 < e -> Zpos (digits2_pos m) = 24))%Z.
Proof.
  unfold bounded, canonical_mantissa, fexp, SpecFloat.emin, sprec, semax.
  rewrite Bool.andb_true_iff. intros [h _]. apply Zeq_bool_eq in h. lia.
Qed.

Lemma exp_lt32 m1 e1 m2 e2 :
  bounded sprec semax m1 e1 = true -> bounded sprec semax m2 e2 = true -> (e1 < e2)%Z ->
  inject_Z (Zpos m1) * 2 ^ e1 < inject_Z (Zpos m2) * 2 ^ e2.
Proof.
  intros h1 h2 he. apply bounded_digits32 in h1 as (a1 & b1 & _). apply bounded_digits32 in h2 as (_ & _ & c2).
  assert (d2 : Zpos (digits2_pos m2) = 24%Z) by (apply c2; lia).
  pose proof (digits_upper m1) as u. pose proof (digits_lower m2) as l. rewrite d2 in l.
  assert (u' : (Zpos m1 < 2 ^ 24)%Z).
  { eapply Z.lt_le_trans; [exact u|]. apply Z.pow_le_mono_r; lia. }
  replace e2 with (e1 + (e2 - e1))%Z by lia.
  rewrite Qpower_plus by discriminate.
  rewrite (Qmult_comm (2 ^ e1)), Qmult_assoc.
  apply Qmult_lt_compat_r; [apply pow2_pos|].
  change (2 ^ (e2 - e1)) with (inject_Z 2 ^ (e2 - e1)).
  rewrite <- Zpower_Qpower by lia. rewrite <- inject_Z_mult, <- Zlt_Qlt.
  assert (p : (2 ^ 1 <= 2 ^ (e2 - e1))%Z) by (apply Z.pow_le_mono_r; lia).
  change (2 ^ 1)%Z with 2%Z in p. change (2 ^ (24 - 1))%Z with 8388608%Z in l.
  change (2 ^ 24)%Z with 16777216%Z in u'. nia.
Qed.

Lemma cmp_pos32 m1 e1 m2 e2 :
  bounded sprec semax m1 e1 = true -> bounded sprec semax m2 e2 = true ->
  match Z.compare e1 e2 with Lt => Lt | Gt => Gt | Eq => Pos.compare_cont Eq m1 m2 end =
  (inject_Z (Zpos m1) * 2 ^ e1 ?= inject_Z (Zpos m2) * 2 ^ e2).
Proof.
  intros h1 h2. destruct (Z.compare_spec e1 e2) as [->|hlt|hgt].
  - change (Pos.compare_cont Eq m1 m2) with (Pos.compare m1 m2).
    destruct (Pos.compare_spec m1 m2) as [->|h|h]; symmetry.
    + apply (proj1 (Qeq_alt _ _)). reflexivity.
    + apply (proj1 (Qlt_alt _ _)). apply Qmult_lt_compat_r; [apply pow2_pos|]. rewrite <- Zlt_Qlt. auto.
    + apply (proj1 (Qgt_alt _ _)). apply Qmult_lt_compat_r; [apply pow2_pos|]. rewrite <- Zlt_Qlt. auto.
  - symmetry. apply (proj1 (Qlt_alt _ _)). apply exp_lt32; auto.
  - symmetry. apply (proj1 (Qgt_alt _ _)). apply exp_lt32; auto.
Qed.

Lemma SFcompare_val32 x y : sf_finite x -> sf_finite y -> SFcompare x y = Some (f64_val x ?= f64_val y).
Proof.
  destruct x as [s1|s1| |s1 m1 e1]; try contradiction;
  destruct y as [s2|s2| |s2 m2 e2]; try contradiction; intros h1 h2; cbn [sf_finite] in h1, h2;
    unfold SFcompare, f64_val; f_equal.
  - destruct s2; symmetry.
    + apply (proj1 (Qgt_alt _ _)). pose proof (f64_pos m2 e2). pose proof (neg_val m2 e2). lra.
    + apply (proj1 (Qlt_alt _ _)). apply f64_pos.
  - destruct s1; symmetry.
    + apply (proj1 (Qlt_alt _ _)). pose proof (f64_pos m1 e1). pose proof (neg_val m1 e1). lra.
    + apply (proj1 (Qgt_alt _ _)). apply f64_pos.
  - pose proof (f64_pos m1 e1). pose proof (neg_val m1 e1).
    pose proof (f64_pos m2 e2). pose proof (neg_val m2 e2).
    destruct s1, s2.
    + rewrite (Qcompare_comp _ _ (neg_val m1 e1) _ _ (neg_val m2 e2)).
      rewrite <- compare_opp, <- cmp_pos32 by auto.
      destruct (e1 ?= e2)%Z; reflexivity.
    + symmetry. apply (proj1 (Qlt_alt _ _)). lra.
    + symmetry. apply (proj1 (Qgt_alt _ _)). lra.
    + apply cmp_pos32; auto.
Qed.

Lemma SFltb_val32 x y : sf_finite x -> sf_finite y -> (SFltb x y = true <-> f64_val x < f64_val y).
Proof.
  intros hx hy. unfold SFltb. rewrite SFcompare_val32 by auto.
  destruct (Qcompare_spec (f64_val x) (f64_val y)); split; intros; try discriminate; try reflexivity; lra.
Qed.

Lemma SFeqb_val32 x y : sf_finite x -> sf_finite y -> (SFeqb x y = true <-> f64_val x == f64_val y).
Proof.
  intros hx hy. unfold SFeqb. rewrite SFcompare_val32 by auto.
  destruct (Qcompare_spec (f64_val x) (f64_val y)); split; intros; try discriminate; try reflexivity; lra.
Qed.

Global Instance OrdLaws_f32 : OrdLaws f32.
Proof.
  refine {| okN := fun x => sf_finite (sf32 x); vN := fun x => f64_val (sf32 x) |};
    cbn [nzero nltb neqb nis_zero NumN_f32 sf32].
  - exact I.
  - reflexivity.
  - intros a b. apply SFltb_val32.
  - intros a b. apply SFeqb_val32.
  - intros a ha. rewrite SFeqb_val32 by (auto; exact I). cbn [f64_val]. split; intros h; rewrite h; reflexivity.
Defined.

(** ** conversion *)
Lemma bounded_exp32 m e : bounded sprec semax m e = true -> (e <= 104)%Z.
Proof. unfold bounded. rewrite Bool.andb_true_iff. intros [_ h]. apply Z.leb_le in h. unfold sprec, semax in h. lia. Qed.

Lemma widen_exact x : sf_finite x -> f64_finite (widen x) /\ f64_val (widen x) == f64_val x.
Proof.
  destruct x as [s|s| |s m e]; cbn [sf_finite widen]; try tauto; intros h.
  - split; [exact I|reflexivity].
  - pose proof (bounded_exp32 _ _ h) as he. apply bounded_digits32 in h as (h1 & h2 & _).
    assert (hm : (Zpos m < 2 ^ 24)%Z).
    { eapply Z.lt_le_trans; [apply digits_upper|]. apply Z.pow_le_mono_r; lia. }
    assert (hm' : (Z.abs (if s then Zneg m else Zpos m) <= 2 ^ 53)%Z).
    { apply Z.le_trans with (2 ^ 24)%Z; [destruct s; lia|]. apply Z.pow_le_mono_r; lia. }
    assert (hx : (-1074 <= e <= 970)%Z) by lia.
    assert (hv : inject_Z (if s then Zneg m else Zpos m) * 2 ^ e == inject_Z (if s then Zneg m else Zpos m) * 2 ^ e)
      by reflexivity.
    destruct (normalize_exact e false hv hm' hx) as [g1 g2]. split; [exact g1|]. rewrite g2.
    cbn [f64_val]. destruct s; reflexivity.
Qed.

(** the largest and the smallest positive number *)
Lemma sf_bounds x : sf_finite x -> f64_val x <= 2 ^ 128 /\ (0 <= f64_val x -> f64_val x == 0 \/ 2 ^ (-149) <= f64_val x).
Proof.
  destruct x as [s|s| |s m e]; cbn [sf_finite]; try tauto; intros h.
  - cbn [f64_val]. split; [apply Qlt_le_weak; reflexivity|]. intros _. left. reflexivity.
  - pose proof (bounded_exp32 _ _ h) as he. apply bounded_digits32 in h as (h1 & h2 & _).
    assert (hm : (Zpos m <= 2 ^ 24)%Z).
    { apply Z.lt_le_incl. eapply Z.lt_le_trans; [apply digits_upper|]. apply Z.pow_le_mono_r; lia. }
    pose proof (f64_pos m e) as hp. cbn [f64_val]. destruct s.
    + rewrite neg_val. split; [|lra]. assert (0 < 2 ^ 128) by reflexivity. lra.
    + split.
      * apply Qle_trans with (inject_Z (2 ^ 24) * 2 ^ e).
        -- apply Qmult_le_compat_r; [rewrite <- Zle_Qle; exact hm|apply Qlt_le_weak, pow2_pos].
        -- change (inject_Z (2 ^ 24)) with (2 ^ 24). rewrite <- Qpower_plus by discriminate. apply pow2_le. lia.
      * intros _. right. apply Qle_trans with (2 ^ e); [apply pow2_le; lia|].
        pose proof (pow2_pos e). assert (1 <= inject_Z (Zpos m)) by (change 1 with (inject_Z 1); rewrite <- Zle_Qle; lia).
        nra.
Qed.

(** ** addition *)
Open Scope Z_scope.
Local Notation fx32 := (fexp sprec semax).
Lemma fx32_def e : fx32 e = Z.max (e - 24) (-149).
Proof. reflexivity. Qed.

Definition near_grid32 (x : Q) (R e : Z) : Prop :=
  0 <= R <= 2 ^ 24 /\ -149 <= e /\
  (- ((1 # 2) * 2 ^ e) <= inject_Z R * 2 ^ e - x)%Q /\ (inject_Z R * 2 ^ e - x <= (1 # 2) * 2 ^ e)%Q /\
  (e = -149 \/ (2 ^ (e + 23) <= x)%Q).

Lemma round_aux_near32 sx mx ex lx x : 0 <= mx -> at_pos x ex (shr_record_of_loc mx lx) ->
  ex <= fx32 (Zdigits2 mx + ex) ->
  exists R e, near_grid32 x R e /\
    ((inject_Z R * 2 ^ e < 2 ^ 128)%Q ->
      sf_finite (binary_round_aux sprec semax sx mx ex lx) /\
      (f64_val (binary_round_aux sprec semax sx mx ex lx) == inject_Z (if sx then - R else R) * 2 ^ e)%Q).
Proof.
  intros hm hx he. set (D := Zdigits2 mx + ex) in *.
  assert (hD : (x < 2 ^ D)%Q /\ (mx = 0 \/ (2 ^ (D - 1) <= x)%Q)).
  { destruct hx as (f & hf & ->). apply fbits_range in hf. rewrite record_of_loc. pose proof (pow2_pos ex) as p.
    destruct mx as [|m|m]; [| |lia].
    - unfold D. cbn [Zdigits2]. split; [|auto]. rewrite Z.add_0_l. change (inject_Z 0) with 0%Q. nra.
    - unfold D. cbn [Zdigits2]. split.
      + rewrite Qpower_plus by discriminate. rewrite (@pow2_inject (Zpos (digits2_pos m))) by lia. pose proof (digits_upper m) as u.
        assert (u' : Zpos m + 1 <= 2 ^ Zpos (digits2_pos m)) by lia. rewrite Zle_Qle, inject_Z_plus in u'.
        change (inject_Z 1) with 1%Q in u'. nra.
      + right. replace (Zpos (digits2_pos m) + ex - 1) with ((Zpos (digits2_pos m) - 1) + ex) by lia.
        rewrite Qpower_plus by discriminate. rewrite (@pow2_inject (Zpos (digits2_pos m) - 1)) by lia. pose proof (digits_lower m) as u.
        rewrite Zle_Qle in u. nra. }
  set (e := fx32 D) in *. assert (ee : e = Z.max (D - 24) (-149)) by reflexivity.
  remember (binary_round_aux sprec semax sx mx ex lx) as y eqn:hy. revert hy.
  unfold binary_round_aux. unfold shr_fexp at 1. fold D. fold e.
  destruct (@shr_at x ex (shr_record_of_loc mx lx) (e - ex)) as (h1 & h2 & h3); [rewrite record_of_loc; exact hm|exact hx|].
  destruct (shr (shr_record_of_loc mx lx) ex (e - ex)) as [mrs e1]. cbn [fst snd] in h1, h2, h3.
  assert (h4 : e1 = e) by lia. clear h3. rewrite h4 in h1 |- *. clear e1 h4.
  destruct (rne_near h2 h1) as (r1 & r2 & r3).
  set (R := round_nearest_even (shr_m mrs) (loc_of_shr_record mrs)) in *.
  pose proof (pow2_pos e) as pe.
  assert (hmr : shr_m mrs < 2 ^ 24 /\ (e = -149 \/ (2 ^ (e + 23) <= x)%Q /\ 2 ^ 23 <= shr_m mrs)).
  { destruct h1 as (f & hf & hxm). apply fbits_range in hf. split.
    - assert (hl : (x < 2 ^ 24 * 2 ^ e)%Q).
      { apply Qlt_le_trans with (1 := proj1 hD). rewrite <- Qpower_plus by discriminate. apply pow2_le. lia. }
      rewrite hxm in hl. change (2 ^ 24)%Q with (inject_Z (2 ^ 24)) in hl.
      apply Qmult_lt_r in hl; [|exact pe]. rewrite Zlt_Qlt. lra.
    - destruct (Z.eq_dec e (-149)) as [|hne]; [left; assumption|right].
      assert (mx <> 0). { intros ->. unfold D in ee. cbn [Zdigits2] in ee. lia. }
      destruct (proj2 hD) as [|hl]; [contradiction|]. replace (D - 1) with (e + 23) in hl by lia.
      split; [exact hl|]. rewrite Z.add_comm, Qpower_plus in hl by discriminate.
      change (2 ^ 23)%Q with (inject_Z (2 ^ 23)) in hl. rewrite hxm in hl. apply Qmult_le_r in hl; [|exact pe].
      assert (h : 2 ^ 23 < shr_m mrs + 1); [|lia]. rewrite Zlt_Qlt, inject_Z_plus. change (inject_Z 1) with 1%Q. lra. }
  assert (hR : 0 <= R <= 2 ^ 24) by lia.
  intros hy. exists R, e. split.
  { split; [exact hR|]. split; [lia|]. split; [exact r2|]. split; [exact r3|]. destruct hmr as [_ [h|[h _]]]; auto. }
  intros hov.
  assert (hR23 : e = -149 \/ 2 ^ 23 <= R) by lia.
  assert (he2 : 2 ^ 23 <= R -> e <= 104).
  { intros h. assert (e + 23 < 128); [|lia]. apply pow2_lt. rewrite Z.add_comm, Qpower_plus by discriminate.
    change (2 ^ 23)%Q with (inject_Z (2 ^ 23)). rewrite Zle_Qle in h. nra. }
  assert (hsign : forall m : positive, R = Zpos m -> (inject_Z (if sx then Zneg m else Zpos m) * 2 ^ e == inject_Z (if sx then - R else R) * 2 ^ e)%Q)
    by (intros m ->; reflexivity).
  revert hy. unfold shr_fexp, shr_record_of_loc. destruct R as [|m|m]; [| |lia].
  - (* zero *)
    cbn [Zdigits2]. rewrite Z.add_0_l. assert (hf : fx32 e - e <= 0) by (rewrite fx32_def; lia).
    destruct (fx32 e - e) as [|q|q]; [|lia|]; cbn [shr shr_m]; intros ->; (split; [exact I|]); cbn [f64_val];
      destruct sx; cbn [Z.opp]; change (inject_Z 0) with 0%Q; rewrite Qmult_0_l; reflexivity.
  - cbn [Zdigits2]. rewrite digits_log2. destruct (Z.eq_dec (Zpos m) (2 ^ 24)) as [e24|n24].
    + (* carry *)
      assert (em : m = Pos.pow 2 24) by (apply (f_equal Z.to_pos) in e24; exact e24). subst m. clear e24.
      change (Z.log2 (Zpos (2 ^ 24)) + 1) with 25. replace (fx32 (25 + e) - e) with 1 by (rewrite fx32_def; lia).
      cbn [shr SpecFloat.iter_pos]. change (shr_1 {| shr_m := Zpos (2 ^ 24); shr_r := false; shr_s := false |})
        with {| shr_m := Zpos (2 ^ 23); shr_r := false; shr_s := false |}. cbn [shr_m].
      assert (e + 24 < 128).
      { apply pow2_lt. rewrite Z.add_comm, Qpower_plus by discriminate. exact hov. }
      replace (e + 1 <=? semax - sprec) with true by (symmetry; apply Z.leb_le; unfold semax, sprec; lia).
      intros ->. split.
      * cbn [sf_finite]. unfold bounded, canonical_mantissa. rewrite digits_log2.
        change (Z.log2 (Zpos (2 ^ 23)) + 1) with 24.
        rewrite Bool.andb_true_iff. split; [apply Zeq_is_eq_bool; rewrite fx32_def; lia|apply Z.leb_le; unfold semax, sprec; lia].
      * cbn [f64_val]. rewrite pow2_S. destruct sx; [change (inject_Z (- Zpos (2 ^ 24))) with (inject_Z (- 2 ^ 24))
          ; change (inject_Z (Zneg (2 ^ 23))) with (inject_Z (- 2 ^ 23))
          |change (inject_Z (Zpos (2 ^ 24))) with (inject_Z (2 ^ 24)); change (inject_Z (Zpos (2 ^ 23))) with (inject_Z (2 ^ 23))].
        -- change (inject_Z (- 2 ^ 24)) with (inject_Z (- 2 ^ 23) * 2)%Q. ring.
        -- change (inject_Z (2 ^ 24)) with (inject_Z (2 ^ 23) * 2)%Q. ring.
    + assert (hl : Z.log2 (Zpos m) + 1 <= 24).
      { assert (Z.log2 (Zpos m) < 24) by (apply Z.log2_lt_pow2; lia). lia. }
      assert (hd : e = -149 \/ Z.log2 (Zpos m) + 1 = 24).
      { destruct hR23 as [|h]; [auto|]. right. assert (23 <= Z.log2 (Zpos m)) by (apply Z.log2_le_pow2; lia). lia. }
      pose proof (Z.log2_nonneg (Zpos m)) as hl0.
      assert (hf : fx32 (Z.log2 (Zpos m) + 1 + e) = e) by (rewrite fx32_def; lia). rewrite hf, Z.sub_diag. cbn [shr shr_m].
      replace (e <=? semax - sprec) with true by (symmetry; apply Z.leb_le; unfold semax, sprec; lia).
      intros ->. split.
      * cbn [sf_finite]. unfold bounded, canonical_mantissa. rewrite digits_log2, hf.
        rewrite Bool.andb_true_iff. split; [apply Zeq_is_eq_bool; reflexivity|apply Z.leb_le; unfold semax, sprec; lia].
      * cbn [f64_val]. apply hsign. reflexivity.
Qed.

Definition rounds32 (x : Q) (y : spec_float) : Prop :=
  sf_finite y /\ exists R e, - 2 ^ 24 <= R <= 2 ^ 24 /\ -149 <= e /\ (f64_val y == inject_Z R * 2 ^ e)%Q /\
    (- ((1 # 2) * 2 ^ e) <= f64_val y - x)%Q /\ (f64_val y - x <= (1 # 2) * 2 ^ e)%Q /\
    (e = -149 \/ (2 ^ (e + 23) <= x)%Q \/ (x <= - 2 ^ (e + 23))%Q).

Lemma rounds_ext32 x x' y : (x == x')%Q -> rounds32 x y -> rounds32 x' y.
Proof.
  intros h (h1 & R & e & h2 & h3 & h4 & h5 & h6 & h7). split; [exact h1|]. exists R, e. rewrite <- h.
  split; [exact h2|]. split; [exact h3|]. split; [exact h4|]. split; [exact h5|]. split; [exact h6|]. exact h7.
Qed.

Lemma aux_rounds32 (sx : bool) mx ex lx x : 0 <= mx -> at_pos x ex (shr_record_of_loc mx lx) ->
  ex <= fx32 (Zdigits2 mx + ex) -> (x <= 2 ^ 127)%Q ->
  rounds32 (if sx then - x else x)%Q (binary_round_aux sprec semax sx mx ex lx).
Proof.
  intros h1 h2 h3 h4. destruct (round_aux_near32 sx lx h1 h2 h3) as (R & e & (a1 & a2 & a3 & a4 & a5) & h).
  pose proof (pow2_pos e) as pe.
  destruct h as [f1 f2].
  { destruct a5 as [->|a5].
    - apply Qle_lt_trans with (inject_Z (2 ^ 24) * 2 ^ (-149))%Q.
      + apply Qmult_le_compat_r; [rewrite <- Zle_Qle; lia|lra].
      + reflexivity.
    - assert (he : e + 23 <= 127) by (apply pow2_le_inv; lra).
      assert (hp : (2 ^ e <= 2 ^ 104)%Q) by (apply pow2_le; lia).
      assert (h5 : (2 ^ 127 + (1 # 2) * 2 ^ 104 < 2 ^ 128)%Q) by reflexivity. lra. }
  split; [exact f1|]. exists (if sx then - R else R), e. rewrite f2.
  split; [destruct sx; lia|]. split; [exact a2|]. split; [reflexivity|].
  destruct sx.
  - rewrite inject_Z_opp. split; [lra|]. split; [lra|]. destruct a5 as [a5|a5]; [auto|]. right. right. lra.
  - split; [lra|]. split; [lra|]. destruct a5 as [a5|a5]; auto.
Qed.

Lemma round_rounds32 (sx : bool) m e : (inject_Z (Zpos m) * 2 ^ e <= 2 ^ 127)%Q ->
  rounds32 (inject_Z (if sx then Zneg m else Zpos m) * 2 ^ e) (binary_round sprec semax sx m e).
Proof.
  intros hb. unfold binary_round. set (f := fx32 (Zpos (digits2_pos m) + e)).
  assert (ha : exists mz ez, shl_align m e f = (mz, ez) /\ ez <= f /\ ez <= e /\ Zpos mz = Zpos m * 2 ^ (e - ez)).
  { destruct (Z_le_gt_dec e f) as [h|h].
    - exists m, e. split; [apply shl_align_id; lia|]. rewrite Z.sub_diag, Z.pow_0_r. lia.
    - destruct (@shl_align_spec m e f) as [h1 h2]; [lia|].
      exists (fst (shl_align m e f)), f. split; [destruct (shl_align m e f); cbn in *; congruence|]. lia. }
  destruct ha as (mz & ez & -> & hez & hee & hmz).
  assert (hx : (inject_Z (Zpos m) * 2 ^ e == inject_Z (Zpos mz) * 2 ^ ez)%Q).
  { apply (@scaled_eq _ e _ ez ez); try lia. rewrite Z.sub_diag, Z.pow_0_r. lia. }
  apply rounds_ext32 with (if sx then - (inject_Z (Zpos m) * 2 ^ e) else inject_Z (Zpos m) * 2 ^ e)%Q.
  { destruct sx; [|reflexivity]. rewrite neg_val. reflexivity. }
  apply aux_rounds32; [lia| | |exact hb].
  - exists 0%Q. split; [reflexivity|]. cbn [shr_record_of_loc shr_m]. rewrite hx, Qplus_0_r. reflexivity.
  - cbn [Zdigits2]. rewrite (@digits_shift mz m (e - ez)) by (auto; lia).
    replace (Zpos (digits2_pos m) + (e - ez) + ez) with (Zpos (digits2_pos m) + e) by lia. exact hez.
Qed.

Lemma rounds_refl32 y : sf_finite y -> rounds32 (f64_val y) y.
Proof.
  intros hf. split; [exact hf|]. pose proof (pow2_pos (-149)) as pz. destruct y as [s|s| |s m e]; try contradiction.
  - exists 0, (-149). cbn [f64_val]. change (inject_Z 0) with 0%Q. rewrite Qmult_0_l.
    split; [lia|]. split; [lia|]. split; [reflexivity|]. split; [lra|]. split; [lra|]. auto.
  - cbn [sf_finite] in hf. apply bounded_digits32 in hf as (h1 & h2 & h3). pose proof (pow2_pos e) as pe.
    pose proof (digits_upper m) as u. pose proof (digits_lower m) as l.
    assert (u' : Zpos m < 2 ^ 24). { apply Z.lt_le_trans with (1 := u). apply Z.pow_le_mono_r; lia. }
    exists (if s then Zneg m else Zpos m), e. cbn [f64_val]. split; [destruct s; lia|]. split; [exact h2|].
    split; [reflexivity|]. split; [lra|]. split; [lra|].
    destruct (Z.eq_dec e (-149)) as [|hn]; [auto|]. rewrite h3 in l by lia. right.
    assert (h : (2 ^ (e + 23) <= inject_Z (Zpos m) * 2 ^ e)%Q).
    { rewrite Z.add_comm, Qpower_plus by discriminate. change (2 ^ 23)%Q with (inject_Z (2 ^ 23)).
      apply Qmult_le_compat_r; [|lra]. rewrite <- Zle_Qle. exact l. }
    destruct s; [right|left; exact h]. rewrite neg_val. lra.
Qed.

Lemma normalize_rounds32 z e sz : (- 2 ^ 127 <= inject_Z z * 2 ^ e)%Q -> (inject_Z z * 2 ^ e <= 2 ^ 127)%Q ->
  rounds32 (inject_Z z * 2 ^ e) (binary_normalize sprec semax z e sz).
Proof.
  intros h1 h2. destruct z as [|m|m]; cbn [binary_normalize].
  - apply rounds_ext32 with (f64_val (S754_zero sz)); [|apply rounds_refl32; exact I].
    cbn [f64_val]. change (inject_Z 0) with 0%Q. rewrite Qmult_0_l. reflexivity.
  - apply (@round_rounds32 false). exact h2.
  - apply (@round_rounds32 true). rewrite neg_val in h1. lra.
Qed.

Lemma add_rounds32 a b : sf_finite a -> sf_finite b ->
  (- 2 ^ 127 <= f64_val a + f64_val b)%Q -> (f64_val a + f64_val b <= 2 ^ 127)%Q ->
  rounds32 (f64_val a + f64_val b) (SFadd sprec semax a b).
Proof.
  intros ha hb h1 h2. destruct a as [sa|sa| |sa ma ea]; try contradiction;
    destruct b as [sb|sb| |sb mb eb]; try contradiction; cbn [SFadd].
  - destruct (Bool.eqb sa sb); cbn [f64_val]; (eapply rounds_ext32; [|apply rounds_refl32; exact I]); cbn [f64_val]; lra.
  - eapply rounds_ext32; [|apply rounds_refl32; exact hb]. cbn [f64_val]. lra.
  - eapply rounds_ext32; [|apply rounds_refl32; exact ha]. cbn [f64_val]. lra.
  - set (h := Z.min ea eb).
    destruct (@shl_align_spec ma ea h) as [e1 _]; [lia|]. destruct (@shl_align_spec mb eb h) as [e2 _]; [lia|].
    rewrite e1, e2. clear e1 e2.
    assert (E : forall s m e, h <= e -> (inject_Z (cond_Zopp s (Zpos m * 2 ^ (e - h))) * 2 ^ h ==
                                        f64_val (S754_finite s m e))%Q).
    { intros s m e he. cbn [f64_val]. apply scaled_eq with (h := h); try lia. rewrite Z.sub_diag, Z.pow_0_r, Z.mul_1_r.
      destruct s; cbn [cond_Zopp]; [change (Zneg m) with (- Zpos m)|]; lia. }
    pose proof (E sa ma ea ltac:(lia)) as ea'. pose proof (E sb mb eb ltac:(lia)) as eb'. clear E.
    assert (es : (inject_Z (cond_Zopp sa (Zpos ma * 2 ^ (ea - h)) + cond_Zopp sb (Zpos mb * 2 ^ (eb - h))) * 2 ^ h ==
      f64_val (S754_finite sa ma ea) + f64_val (S754_finite sb mb eb))%Q).
    { rewrite inject_Z_plus, Qmult_plus_distr_l, ea', eb'. reflexivity. }
    eapply rounds_ext32; [exact es|]. apply normalize_rounds32; rewrite es; assumption.
Qed.

Definition on_min_grid32 (x : Q) : Prop := exists z, (x == inject_Z z * 2 ^ (-149))%Q.

Lemma finite_min_grid32 a : sf_finite a -> on_min_grid32 (f64_val a).
Proof.
  intros h. destruct (rounds_refl32 a h) as (_ & R & e & _ & he & hv & _). exists (R * 2 ^ (e + 149)). rewrite hv.
  apply (@scaled_eq _ e _ (-149) (-149)); try lia. replace (e - -149) with (e + 149) by lia. replace (-149 - -149) with 0 by lia.
  rewrite Z.pow_0_r. lia.
Qed.

Lemma min_grid_add32 a b : on_min_grid32 a -> on_min_grid32 b -> on_min_grid32 (a + b).
Proof. intros (x & hx) (y & hy). exists (x + y). rewrite hx, hy, inject_Z_plus. ring. Qed.

Lemma rounds_error32 x y : rounds32 x y -> on_min_grid32 x ->
  (f64_val y - x <= 2 ^ (-24) * x \/ f64_val y - x <= - (2 ^ (-24) * x))%Q /\
  (- (2 ^ (-24) * x) <= f64_val y - x \/ 2 ^ (-24) * x <= f64_val y - x)%Q.
Proof.
  intros (hf & R & e & hR & he & hv & h1 & h2 & h3) (z & hz). pose proof (pow2_pos e) as pe.
  assert (hh : ((1 # 2) * 2 ^ e == 2 ^ (-24) * 2 ^ (e + 23))%Q).
  { rewrite <- Qpower_plus by discriminate. replace (-24 + (e + 23)) with (e + -1) by lia. rewrite Qpower_plus by discriminate.
    change (2 ^ (-1))%Q with (1 # 2)%Q. ring. }
  assert (pp : (0 < 2 ^ (-24))%Q) by reflexivity.
  destruct h3 as [->|[h3|h3]].
  - (* exact *)
    assert (ex : (f64_val y == x)%Q).
    { rewrite hv, hz in *. set (u := (2 ^ (-149))%Q) in *.
      assert (a1 : (inject_Z (R - z) * u <= (1 # 2) * u)%Q).
      { unfold Z.sub. rewrite inject_Z_plus, inject_Z_opp. lra. }
      assert (a2 : ((- (1 # 2)) * u <= inject_Z (R - z) * u)%Q).
      { unfold Z.sub. rewrite inject_Z_plus, inject_Z_opp. lra. }
      apply Qmult_le_r in a1; [|exact pe]. apply Qmult_le_r in a2; [|exact pe].
      assert (R - z < 1) by (rewrite Zlt_Qlt; change (inject_Z 1) with 1%Q; lra).
      assert (-1 < R - z) by (rewrite Zlt_Qlt; change (inject_Z (-1)) with (-1)%Q; lra).
      replace R with z by lia. reflexivity. }
    rewrite ex. destruct (Qlt_le_dec x 0) as [hx|hx]; (split; [|]); try (left; nra); right; nra.
  - assert (2 ^ (-24) * 2 ^ (e + 23) <= 2 ^ (-24) * x)%Q by (rewrite !(Qmult_comm (2 ^ (-24))); apply Qmult_le_compat_r; lra).
    split; left; lra.
  - assert (2 ^ (-24) * 2 ^ (e + 23) <= 2 ^ (-24) * (- x))%Q by (rewrite !(Qmult_comm (2 ^ (-24))); apply Qmult_le_compat_r; lra).
    split; right; lra.
Qed.

Open Scope Q_scope.
Lemma vals32 (D : nat -> nat -> f32) x y : vals D x y = f64_val (sf32 (D x y)).
Proof. reflexivity. Qed.

Lemma f32_exact_from M n D : nonneg_matrix (Nt := f32) M n D -> exact_from n D.
Proof. intros h x y hx hy. destruct (proj2 h x y hx hy) as [h1 _]. apply widen_exact. exact h1. Qed.

(** the sum of two entries *)
Lemma f32_adds_within M n (D : nat -> nat -> f32) : nonneg_matrix M n D ->
  (forall x y, (x < n)%nat -> (y < n)%nat -> vals D x y <= 2 ^ 126) -> adds_within (2 ^ (-24)) n D.
Proof.
  intros h hb o x y ho hx hy. destruct (proj2 h o x ho hx) as [fx px]. destruct (proj2 h o y ho hy) as [fy py].
  pose proof (hb o x ho hx) as bx. pose proof (hb o y ho hy) as b_y.
  change (0 <= f64_val (sf32 (D o x))) in px. change (0 <= f64_val (sf32 (D o y))) in py.
  change (f64_val (sf32 (D o x)) <= 2 ^ 126) in bx. change (f64_val (sf32 (D o y)) <= 2 ^ 126) in b_y. rewrite !vals32.
  change (sf_finite (sf32 (D o x))) in fx. change (sf_finite (sf32 (D o y))) in fy.
  assert (e : 2 ^ 127 == 2 * 2 ^ 126) by reflexivity. pose proof (pow2_pos 126) as pp.
  pose proof (@add_rounds32 (sf32 (D o x)) (sf32 (D o y)) fx fy ltac:(lra) ltac:(lra)) as hr.
  pose proof (rounds_error32 hr (min_grid_add32 (finite_min_grid32 _ fx) (finite_min_grid32 _ fy))) as [h1 h2].
  destruct (widen_exact _ (proj1 hr)) as [w1 w2].
  split; [apply hr|]. split; [exact w1|]. split; [exact w2|].
  unfold close. change (lfrom (nadd (D o x) (D o y))) with (widen (SFadd sprec semax (sf32 (D o x)) (sf32 (D o y)))).
  rewrite w2. set (s := f64_val (sf32 (D o x)) + f64_val (sf32 (D o y))) in *. assert (0 <= s) by (unfold s; lra).
  assert (0 <= 2 ^ (-24) * s) by (apply Qmult_le_0_compat; [apply Qlt_le_weak; reflexivity|auto]).
  split; [destruct h2; lra|destruct h1; lra].
Qed.

(** ** termination *)
Global Instance LossOrder_f32_f64 : @LossOrder f32 f64 _ _ _ _.
Proof.
  refine {| okL := f64_nonneg : f64 -> Prop |}.
  - exact I.
  - intros x h1 h2. destruct (widen_exact _ h1) as [w1 w2]. apply finite_nonneg; [exact w1|].
    change (0 <= f64_val (widen (sf32 x))). rewrite w2. exact h2.
  - exact (@add_nonneg fprec femax).
  - exact SFleb_refl.
  - exact SFleb_trans.
  - exact SFleb_total.
  - exact SFltb_SFleb.
Defined.
Global Instance RatioOrder_f32_f64 : @RatioOrder f32 f64 _ _ _ _ _.
Proof. constructor. reflexivity. Defined.
Lemma ratios_ok_f32 n D : ratios_ok (Nt := f32) (Lt := f64) n D.
Proof.
  intros o x y _ _ _ hx hy px py. destruct (widen_exact _ hx) as [x1 x2]. destruct (widen_exact _ hy) as [y1 y2].
  apply div_nonneg; auto.
  - change (0 < f64_val (widen (sf32 (D o x)))). rewrite x2. exact px.
  - change (0 < f64_val (widen (sf32 (D o y)))). rewrite y2. exact py.
Qed.

(** no entry is a negative zero *)
Definition no_negative_zero32 (n : nat) (D : nat -> nat -> f32) : Prop :=
  forall i j, (i < n)%nat -> (j < n)%nat -> sf32 (D i j) <> S754_zero true.

Lemma sf_val_inj x y : sf_finite x -> sf_finite y -> x <> S754_zero true -> y <> S754_zero true -> f64_val x == f64_val y -> x = y.
Proof.
  intros hx hy zx zy e. pose proof (SFcompare_val32 x y hx hy) as h. rewrite (proj1 (Qeq_alt _ _) e) in h.
  destruct x as [sx|sx| |sx mx ex]; try contradiction; destruct y as [sy|sy| |sy my ey]; try contradiction; cbn [SFcompare] in h.
  - destruct sx, sy; congruence.
  - destruct sy; discriminate.
  - destruct sx; discriminate.
  - change (Pos.compare_cont Eq mx my) with (Pos.compare mx my) in h.
    destruct sx, sy; try discriminate; destruct (Z.compare_spec ex ey) as [->|h1|h1]; try discriminate;
      destruct (Pos.compare_spec mx my) as [->|h2|h2]; try discriminate; reflexivity.
Qed.

Lemma same_losses_f32 M n D : diss_matrix M n D -> no_negative_zero32 n D -> same_losses (Nt := f32) (Lt := f64) n D.
Proof.
  intros HD hz o x y ho hx hy e.
  assert (h : sf32 (D o x) = sf32 (D o y)).
  { apply sf_val_inj; auto; apply (proj2 (proj2 HD)); auto. }
  cbn [lfrom FromN_f32_f64]. rewrite h. reflexivity.
Qed.
