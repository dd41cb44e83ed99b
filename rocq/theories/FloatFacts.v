(** FloatFacts.v -- binary64 satisfies [OrdLaws]: comparing two finite floats compares the rational
    numbers they stand for.  Addition is not exact, so there are no further instances. *)
From Coq Require Import ZArith QArith Qpower Lqa Lia.
From Coq.Floats Require Import SpecFloat.
From Verif Require Import Base Num M_Mat Inst Spec Laws.
Open Scope Q_scope.

(** the number a finite float stands for *)
Definition f64_val (x : f64) : Q :=
  match x with
  | S754_finite s m e => inject_Z (if s then Zneg m else Zpos m) * 2 ^ e
  | _ => 0
  end.

(** neither NaN nor infinite; mantissa and exponent are those of a binary64 number *)
Definition f64_finite (x : f64) : Prop :=
  match x with
  | S754_zero _ => True
  | S754_finite _ m e => bounded fprec femax m e = true
  | _ => False
  end.

Lemma pow2_pos e : 0 < 2 ^ e.
Proof. apply Qpower_0_lt. reflexivity. Qed.

Lemma digits_upper m : (Zpos m < 2 ^ Zpos (digits2_pos m))%Z.
Proof.
  induction m as [m IH|m IH|]; simpl digits2_pos.
  - rewrite Pos2Z.inj_succ, Z.pow_succ_r by lia. lia.
  - rewrite Pos2Z.inj_succ, Z.pow_succ_r by lia. lia.
  - reflexivity.
Qed.

Lemma digits_lower m : (2 ^ (Zpos (digits2_pos m) - 1) <= Zpos m)%Z.
Proof.
  induction m as [m IH|m IH|]; simpl digits2_pos.
  - rewrite Pos2Z.inj_succ. replace (Z.succ (Zpos (digits2_pos m)) - 1)%Z
      with (Z.succ (Zpos (digits2_pos m) - 1)) by lia.
    rewrite Z.pow_succ_r by lia. lia.
  - rewrite Pos2Z.inj_succ. replace (Z.succ (Zpos (digits2_pos m)) - 1)%Z
      with (Z.succ (Zpos (digits2_pos m) - 1)) by lia.
    rewrite Z.pow_succ_r by lia. lia.
  - simpl. lia.
Qed.

Lemma bounded_digits m e : bounded fprec femax m e = true ->
  (Zpos (digits2_pos m) <= 53 /\ -1074 <= e /\ (-1074 < e -> Zpos (digits2_pos m) = 53))%Z.
Proof.
  unfold bounded, canonical_mantissa, fexp, SpecFloat.emin, fprec, femax.
  rewrite Bool.andb_true_iff. intros [h _]. apply Zeq_bool_eq in h. lia.
Qed.

(** a larger exponent means a larger number *)
Lemma exp_lt m1 e1 m2 e2 :
  bounded fprec femax m1 e1 = true -> bounded fprec femax m2 e2 = true -> (e1 < e2)%Z ->
  inject_Z (Zpos m1) * 2 ^ e1 < inject_Z (Zpos m2) * 2 ^ e2.
Proof.
  intros h1 h2 he. apply bounded_digits in h1 as (a1 & b1 & _). apply bounded_digits in h2 as (_ & _ & c2).
  assert (d2 : Zpos (digits2_pos m2) = 53%Z) by (apply c2; lia).
  pose proof (digits_upper m1) as u. pose proof (digits_lower m2) as l. rewrite d2 in l.
  assert (u' : (Zpos m1 < 2 ^ 53)%Z).
  { eapply Z.lt_le_trans; [exact u|]. apply Z.pow_le_mono_r; lia. }
  replace e2 with (e1 + (e2 - e1))%Z by lia.
  rewrite Qpower_plus by discriminate.
  rewrite (Qmult_comm (2 ^ e1)), Qmult_assoc.
  apply Qmult_lt_compat_r; [apply pow2_pos|].
  change (2 ^ (e2 - e1)) with (inject_Z 2 ^ (e2 - e1)).
  rewrite <- Zpower_Qpower by lia. rewrite <- inject_Z_mult, <- Zlt_Qlt.
  assert (p : (2 ^ 1 <= 2 ^ (e2 - e1))%Z) by (apply Z.pow_le_mono_r; lia).
  change (2 ^ 1)%Z with 2%Z in p. change (2 ^ (53 - 1))%Z with 4503599627370496%Z in l.
  change (2 ^ 53)%Z with 9007199254740992%Z in u'. nia.
Qed.

Lemma cmp_pos m1 e1 m2 e2 :
  bounded fprec femax m1 e1 = true -> bounded fprec femax m2 e2 = true ->
  match Z.compare e1 e2 with Lt => Lt | Gt => Gt | Eq => Pos.compare_cont Eq m1 m2 end =
  (inject_Z (Zpos m1) * 2 ^ e1 ?= inject_Z (Zpos m2) * 2 ^ e2).
Proof.
  intros h1 h2. destruct (Z.compare_spec e1 e2) as [->|hlt|hgt].
  - change (Pos.compare_cont Eq m1 m2) with (Pos.compare m1 m2).
    destruct (Pos.compare_spec m1 m2) as [->|h|h]; symmetry.
    + apply (proj1 (Qeq_alt _ _)). reflexivity.
    + apply (proj1 (Qlt_alt _ _)). apply Qmult_lt_compat_r; [apply pow2_pos|]. rewrite <- Zlt_Qlt. auto.
    + apply (proj1 (Qgt_alt _ _)). apply Qmult_lt_compat_r; [apply pow2_pos|]. rewrite <- Zlt_Qlt. auto.
  - symmetry. apply (proj1 (Qlt_alt _ _)). apply exp_lt; auto.
  - symmetry. apply (proj1 (Qgt_alt _ _)). apply exp_lt; auto.
Qed.

Lemma f64_pos m e : 0 < inject_Z (Zpos m) * 2 ^ e.
Proof.
  pose proof (pow2_pos e). assert (0 < inject_Z (Zpos m)) by reflexivity.
  setoid_replace 0 with (0 * 2 ^ e) at 1 by ring. apply Qmult_lt_compat_r; auto.
Qed.

Lemma neg_val m e : inject_Z (Zneg m) * 2 ^ e == - (inject_Z (Zpos m) * 2 ^ e).
Proof. change (Zneg m) with (- Zpos m)%Z. rewrite inject_Z_opp. ring. Qed.

Lemma compare_opp a b : CompOpp (a ?= b) = (- a ?= - b).
Proof.
  destruct (Qcompare_spec a b) as [h|h|h]; symmetry; simpl.
  - apply (proj1 (Qeq_alt _ _)). rewrite h. reflexivity.
  - apply (proj1 (Qgt_alt _ _)). lra.
  - apply (proj1 (Qlt_alt _ _)). lra.
Qed.

Lemma SFcompare_val x y : f64_finite x -> f64_finite y -> SFcompare x y = Some (f64_val x ?= f64_val y).
Proof.
  destruct x as [s1|s1| |s1 m1 e1]; try contradiction;
  destruct y as [s2|s2| |s2 m2 e2]; try contradiction; intros h1 h2; cbn [f64_finite] in h1, h2;
    unfold SFcompare, f64_val; f_equal.
  - destruct s2; symmetry.
    + apply (proj1 (Qgt_alt _ _)). pose proof (f64_pos m2 e2). pose proof (neg_val m2 e2). lra.
    + apply (proj1 (Qlt_alt _ _)). apply f64_pos.
  - destruct s1; symmetry.
    + apply (proj1 (Qlt_alt _ _)). pose proof (f64_pos m1 e1). pose proof (neg_val m1 e1). lra.
    + apply (proj1 (Qgt_alt _ _)). apply f64_pos.
  - pose proof (f64_pos m1 e1). pose proof (neg_val m1 e1).
    pose proof (f64_pos m2 e2). pose proof (neg_val m2 e2).
    destruct s1, s2.
    + rewrite (Qcompare_comp _ _ (neg_val m1 e1) _ _ (neg_val m2 e2)).
      rewrite <- compare_opp, <- cmp_pos by auto.
      destruct (e1 ?= e2)%Z; reflexivity.
    + symmetry. apply (proj1 (Qlt_alt _ _)). lra.
    + symmetry. apply (proj1 (Qgt_alt _ _)). lra.
    + apply cmp_pos; auto.
Qed.

Lemma SFltb_val x y : f64_finite x -> f64_finite y -> (SFltb x y = true <-> f64_val x < f64_val y).
Proof.
  intros hx hy. unfold SFltb. rewrite SFcompare_val by auto.
  destruct (Qcompare_spec (f64_val x) (f64_val y)); split; intros; try discriminate; try reflexivity; lra.
Qed.

Lemma SFeqb_val x y : f64_finite x -> f64_finite y -> (SFeqb x y = true <-> f64_val x == f64_val y).
Proof.
  intros hx hy. unfold SFeqb. rewrite SFcompare_val by auto.
  destruct (Qcompare_spec (f64_val x) (f64_val y)); split; intros; try discriminate; try reflexivity; lra.
Qed.

Global Instance OrdLaws_f64 : OrdLaws f64.
Proof.
  refine {| okN := f64_finite; vN := f64_val |}; cbn [nzero nltb neqb nis_zero NumN_f64].
  - exact I.
  - reflexivity.
  - apply SFltb_val.
  - apply SFeqb_val.
  - intros a ha. rewrite SFeqb_val by (auto; exact I). cbn [f64_val]. split; intros h; rewrite h; reflexivity.
Defined.
