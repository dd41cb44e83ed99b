(** TermFloat.v -- binary64 losses which are not negative and not NaN are ordered; sums and quotients
    of such numbers are such numbers (possibly infinite). *)
From Coq Require Import ZArith QArith Qpower Lqa Lia.
From Coq.Floats Require Import SpecFloat.
From Verif Require Import Base Num M_Mat Inst Spec Laws FloatFacts FloatExact FloatRound Term.
Set Implicit Arguments.
Open Scope Z_scope.

Definition f64_nonneg (x : f64) : Prop :=
  match x with
  | S754_zero _ => True
  | S754_infinity s => s = false
  | S754_finite s _ _ => s = false
  | S754_nan => False
  end.

(** no entry is a negative zero *)
Definition no_negative_zero (n : nat) (D : nat -> nat -> f64) : Prop :=
  forall i j, (i < n)%nat -> (j < n)%nat -> D i j <> S754_zero true.

Lemma shr_1_nonneg mrs : 0 <= shr_m mrs -> 0 <= shr_m (shr_1 mrs).
Proof. destruct mrs as [[|[p|p|]|p] r s]; cbn; lia. Qed.

Lemma iter_nonneg p : forall mrs, 0 <= shr_m mrs -> 0 <= shr_m (SpecFloat.iter_pos shr_1 p mrs).
Proof. induction p as [p IH|p IH|]; intros mrs h; cbn [SpecFloat.iter_pos]; auto using shr_1_nonneg. Qed.

(** the operations of any format *)
Section Format.
Variables prec emax : Z.
Lemma shr_fexp_nonneg m e l : 0 <= m -> 0 <= shr_m (fst (shr_fexp prec emax m e l)).
Proof.
  intros h. unfold shr_fexp, shr. destruct (_ - _); cbn [fst]; try (rewrite record_of_loc; exact h).
  apply iter_nonneg. rewrite record_of_loc. exact h.
Qed.

Lemma round_aux_nonneg m e l : 0 <= m -> f64_nonneg (binary_round_aux prec emax false m e l).
Proof.
  intros h. unfold binary_round_aux. pose proof (@shr_fexp_nonneg m e l h) as h1.
  destruct (shr_fexp prec emax m e l) as [m1 e1]. cbn [fst] in h1.
  set (R := round_nearest_even _ _). assert (h2 : 0 <= R).
  { unfold R, round_nearest_even. destruct (loc_of_shr_record m1) as [|[]]; try lia. destruct (Z.even _); lia. }
  pose proof (@shr_fexp_nonneg R e1 loc_Exact h2) as h3.
  destruct (shr_fexp prec emax R e1 loc_Exact) as [m2 e2]. cbn [fst] in h3.
  destruct (shr_m m2); [exact I| |lia]. destruct (Zle_bool _ _); reflexivity.
Qed.

Lemma round_nonneg m e : f64_nonneg (binary_round prec emax false m e).
Proof. unfold binary_round. destruct (shl_align _ _ _) as [mz ez]. apply round_aux_nonneg. lia. Qed.

Lemma normalize_nonneg z e : 0 <= z -> f64_nonneg (binary_normalize prec emax z e false).
Proof. intros h. destruct z; cbn [binary_normalize]; [exact I|apply round_nonneg|lia]. Qed.

Lemma add_nonneg a b : f64_nonneg a -> f64_nonneg b -> f64_nonneg (SFadd prec emax a b).
Proof.
  intros ha hb. destruct a as [sa|sa| |sa ma ea]; try contradiction; destruct b as [sb|sb| |sb mb eb]; try contradiction;
    cbn [SFadd f64_nonneg] in *; subst; try reflexivity.
  - destruct (Bool.eqb sa sb); exact I.
  - apply normalize_nonneg. cbn [cond_Zopp]. lia.
Qed.
End Format.

Lemma finite_nonneg x : f64_finite x -> (0 <= f64_val x)%Q -> f64_nonneg x.
Proof.
  intros hf hv. destruct x as [s|s| |s m e]; try contradiction; [exact I|]. destruct s; [|reflexivity].
  exfalso. cbn [f64_val] in hv. rewrite neg_val in hv. pose proof (f64_pos m e). lra.
Qed.

Lemma div_nonneg x y : f64_finite x -> f64_finite y -> (0 < f64_val x)%Q -> (0 < f64_val y)%Q ->
  f64_nonneg (SFdiv fprec femax x y).
Proof.
  intros hx hy px py. pose proof (@finite_nonneg x hx ltac:(lra)) as nx. pose proof (@finite_nonneg y hy ltac:(lra)) as ny.
  destruct x as [sx|sx| |sx mx ex]; try contradiction; [cbn [f64_val] in px; lra|].
  destruct y as [sy|sy| |sy my ey]; try contradiction; [cbn [f64_val] in py; lra|].
  cbn [f64_nonneg] in nx, ny. subst. cbn [SFdiv xorb].
  pose proof (@div_core (Zpos mx) ex (Zpos my) ey ltac:(lia) ltac:(lia)) as hd.
  destruct (SFdiv_core_binary fprec femax (Zpos mx) ex (Zpos my) ey) as [[q e] l]. destruct hd as (d1 & _).
  apply round_aux_nonneg. exact d1.
Qed.

(** ** the order *)
Lemma SFleb_refl a : f64_nonneg a -> SFleb a a = true.
Proof.
  intros h. destruct a as [s|s| |s m e]; try contradiction; cbn [f64_nonneg] in h; subst; cbn; auto.
  unfold SFleb. cbn [SFcompare]. rewrite Z.compare_refl. change (Pos.compare_cont Eq m m) with (Pos.compare m m).
  rewrite Pos.compare_refl. reflexivity.
Qed.

Lemma SFleb_fin m1 e1 m2 e2 : SFleb (S754_finite false m1 e1) (S754_finite false m2 e2) = true <->
  e1 < e2 \/ (e1 = e2 /\ (m1 <= m2)%positive).
Proof.
  unfold SFleb. cbn [SFcompare]. change (Pos.compare_cont Eq m1 m2) with (Pos.compare m1 m2).
  destruct (Z.compare_spec e1 e2) as [->|h|h].
  - destruct (Pos.compare_spec m1 m2) as [->|h|h]; split; intros g; auto; try lia; try discriminate.
  - split; auto.
  - split; [discriminate|lia].
Qed.

Lemma SFleb_trans a b c : f64_nonneg a -> f64_nonneg b -> f64_nonneg c ->
  SFleb a b = true -> SFleb b c = true -> SFleb a c = true.
Proof.
  intros ha hb hc. destruct a as [sa|sa| |sa ma ea]; try contradiction; destruct b as [sb|sb| |sb mb eb]; try contradiction;
    destruct c as [sc|sc| |sc mc ec]; try contradiction; cbn [f64_nonneg] in *; subst; try (cbn; congruence).
  rewrite !SFleb_fin. lia.
Qed.

Lemma SFleb_total a b : f64_nonneg a -> f64_nonneg b -> SFleb a b = false -> SFleb b a = true.
Proof.
  intros ha hb. destruct a as [sa|sa| |sa ma ea]; try contradiction; destruct b as [sb|sb| |sb mb eb]; try contradiction;
    cbn [f64_nonneg] in *; subst; try (cbn; congruence).
  intros h. apply SFleb_fin. assert (g : ~ (ea < eb \/ ea = eb /\ (ma <= mb)%positive)) by (rewrite <- SFleb_fin; congruence).
  lia.
Qed.

Lemma SFltb_SFleb a b : f64_nonneg a -> f64_nonneg b -> SFltb a b = true -> SFleb b a = false.
Proof.
  intros ha hb. destruct a as [sa|sa| |sa ma ea]; try contradiction; destruct b as [sb|sb| |sb mb eb]; try contradiction;
    cbn [f64_nonneg] in *; subst; try (cbn; congruence).
  intros h. destruct (SFleb _ _) eqn:e; [|auto]. apply SFleb_fin in e. exfalso.
  unfold SFltb in h. cbn [SFcompare] in h. change (Pos.compare_cont Eq ma mb) with (Pos.compare ma mb) in h.
  destruct (Z.compare_spec ea eb) as [->|h1|h1]; try discriminate; [|lia].
  destruct (Pos.compare_spec ma mb) as [->|h1|h1]; try discriminate. lia.
Qed.

Global Instance LossOrder_f64 : @LossOrder f64 f64 _ _ _ _.
Proof.
  refine {| okL := f64_nonneg : f64 -> Prop |}.
  - exact I.
  - exact finite_nonneg.
  - exact (@add_nonneg fprec femax).
  - exact SFleb_refl.
  - exact SFleb_trans.
  - exact SFleb_total.
  - exact SFltb_SFleb.
Defined.

Global Instance RatioOrder_f64 : @RatioOrder f64 f64 _ _ _ _ _.
Proof. constructor. reflexivity. Defined.
Lemma ratios_ok_f64 n D : ratios_ok (Nt := f64) (Lt := f64) n D.
Proof. intros o x y _ _ _. exact (@div_nonneg (D o x) (D o y)). Qed.

(** integers as dissimilarities *)
Global Instance LossOrder_Z_f64 : @LossOrder Z f64 _ _ _ _.
Proof.
  refine {| okL := f64_nonneg : f64 -> Prop |}.
  - exact I.
  - intros x _ h. apply normalize_nonneg. cbn [vN] in h. change 0%Q with (inject_Z 0) in h.
    rewrite <- Zle_Qle in h. exact h.
  - exact (@add_nonneg fprec femax).
  - exact SFleb_refl.
  - exact SFleb_trans.
  - exact SFleb_total.
  - exact SFltb_SFleb.
Defined.

Global Instance RatioOrder_Z_f64 : @RatioOrder Z f64 _ _ _ _ _.
Proof. constructor. reflexivity. Defined.

Lemma ratios_ok_Z n (D : nat -> nat -> Z) : (forall x y, (x < n)%nat -> (y < n)%nat -> D x y <= 2 ^ 53) ->
  ratios_ok (Nt := Z) (Lt := f64) n D.
Proof.
  intros hb o x y ho hx hy _ _ px py. unfold vals in px, py. cbn [vN OrdLaws_Z] in px, py.
  change 0%Q with (inject_Z 0) in px, py. rewrite <- Zlt_Qlt in px, py.
  pose proof (hb o x ho hx). pose proof (hb o y ho hy).
  destruct (@normalize_exact (D o x) 0 (D o x) 0 false ltac:(reflexivity) ltac:(lia) ltac:(lia)) as [x1 x2].
  destruct (@normalize_exact (D o y) 0 (D o y) 0 false ltac:(reflexivity) ltac:(lia) ltac:(lia)) as [y1 y2].
  change (2 ^ 0)%Q with 1%Q in x2, y2. rewrite Qmult_1_r in x2, y2.
  assert (0 < inject_Z (D o x))%Q by (change 0%Q with (inject_Z 0); rewrite <- Zlt_Qlt; lia).
  assert (0 < inject_Z (D o y))%Q by (change 0%Q with (inject_Z 0); rewrite <- Zlt_Qlt; lia).
  apply div_nonneg; [exact x1|exact y1| |]; [change (0 < f64_val (binary_normalize fprec femax (D o x) 0 false))%Q; rewrite x2; auto
    |change (0 < f64_val (binary_normalize fprec femax (D o y) 0 false))%Q; rewrite y2; auto].
Qed.

Lemma same_losses_Z n D : same_losses (Nt := Z) (Lt := f64) n D.
Proof. intros o x y _ _ _ e. unfold vals in e. cbn [vN] in e. rewrite inject_Z_injective in e. congruence. Qed.

(** finite numbers with the same value are the same, apart from the zeros *)
Lemma f64_val_inj x y : f64_finite x -> f64_finite y -> x <> S754_zero true -> y <> S754_zero true ->
  (f64_val x == f64_val y)%Q -> x = y.
Proof.
  intros hx hy zx zy e. pose proof (SFcompare_val x y hx hy) as h. rewrite (proj1 (Qeq_alt _ _) e) in h.
  destruct x as [sx|sx| |sx mx ex]; try contradiction; destruct y as [sy|sy| |sy my ey]; try contradiction; cbn [SFcompare] in h.
  - destruct sx, sy; congruence.
  - destruct sy; discriminate.
  - destruct sx; discriminate.
  - change (Pos.compare_cont Eq mx my) with (Pos.compare mx my) in h.
    destruct sx, sy; try discriminate; destruct (Z.compare_spec ex ey) as [->|h1|h1]; try discriminate;
      destruct (Pos.compare_spec mx my) as [->|h2|h2]; try discriminate; reflexivity.
Qed.

Lemma same_losses_f64 M n D : diss_matrix M n D -> no_negative_zero n D -> same_losses (Nt := f64) (Lt := f64) n D.
Proof.
  intros HD hz o x y ho hx hy e. apply (@f64_val_inj (D o x) (D o y)); auto; apply (proj2 (proj2 HD)); auto.
Qed.
