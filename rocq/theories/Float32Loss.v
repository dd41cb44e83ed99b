(** Float32Loss.v -- losses of type [f32]: correctly rounded operations, the instance of FloatFmt.v, and
    the conversions [f32: From<f32>] and [f32: From<i16>] (likewise From<u8>, From<u16>, From<i8>).
    The first two parts follow FloatRound.v and FloatFmt.v with the parameters of binary32. *)
From Coq Require Import ZArith QArith Qpower Qround Lqa Lia.
From Coq.Floats Require Import SpecFloat.
From Verif Require Import Base Num M_Mat Inst Spec Laws FloatFacts FloatExact FloatRound FloatSil FloatFmt Term TermFloat Float32.
Set Implicit Arguments.
Open Scope Q_scope.

(** [f32] as the type of the losses.  Rust has no [f32: From<u32>]: the functions which need it (those
    with silhouettes) cannot be instantiated with f32 losses, and nothing is claimed for them. *)
Global Instance NumL_f32 : NumL f32 := {|
  lzero := F32 (S754_zero false); lone := F32 (binary_normalize sprec semax 1 0 false);
  ladd := fun a b => F32 (SFadd sprec semax (sf32 a) (sf32 b)); lsub := fun a b => F32 (SFsub sprec semax (sf32 a) (sf32 b));
  lneg := fun a => F32 (SFopp (sf32 a)); ldiv := fun a b => F32 (SFdiv sprec semax (sf32 a) (sf32 b));
  lltb := fun a b => SFltb (sf32 a) (sf32 b); lleb := fun a b => SFleb (sf32 a) (sf32 b);
  lfrom_u32 := fun n => F32 (binary_normalize sprec semax (Z.of_N n) 0 false)
|}.
Global Instance FromN_f32_f32 : FromN f32 f32 := {| lfrom := fun x => x |}.
(** [f32: From<i16>] *)
Global Instance FromN_Z_f32 : FromN Z f32 := {| lfrom := fun z => F32 (binary_normalize sprec semax z 0 false) |}.

(** ** rounding *)
Open Scope Z_scope.
Lemma finite_opp32 a : sf_finite a -> sf_finite (SFopp a).
Proof. destruct a; exact (fun h => h). Qed.

Lemma sub_add32 a b : sf_finite a -> sf_finite b -> SFsub sprec semax a b = SFadd sprec semax a (SFopp b).
Proof.
  intros ha hb. destruct a as [sa|sa| |sa ma ea]; try contradiction;
    destruct b as [sb|sb| |sb mb eb]; try contradiction; cbn [SFadd SFsub SFopp]; try reflexivity.
  f_equal. destruct sb; cbn [cond_Zopp negb]; lia.
Qed.

Lemma sub_rounds32 a b : sf_finite a -> sf_finite b ->
  (- 2 ^ 127 <= f64_val a - f64_val b)%Q -> (f64_val a - f64_val b <= 2 ^ 127)%Q ->
  rounds32 (f64_val a - f64_val b) (SFsub sprec semax a b).
Proof.
  intros ha hb h1 h2. rewrite sub_add32 by assumption.
  assert (e : (f64_val a + f64_val (SFopp b) == f64_val a - f64_val b)%Q) by (rewrite val_opp; ring).
  eapply rounds_ext32; [exact e|]. apply add_rounds32; auto using finite_opp32; rewrite e; assumption.
Qed.

Lemma rounds_le32 x y a : rounds32 x y -> sf_finite a -> (x <= f64_val a)%Q -> (f64_val y <= f64_val a)%Q.
Proof.
  intros (_ & R & e & hR & he & hv & h1 & h2 & h3) ha hx.
  destruct (rounds_refl32 a ha) as (_ & G & g & hG & hg & hva & _ & _ & hg3).
  destruct (Qlt_le_dec (f64_val a) (f64_val y)) as [hlt|]; [exfalso|assumption].
  pose proof (pow2_pos e) as pe. pose proof (pow2_pos g) as pg.
  destruct (Z_le_gt_dec e g) as [hc|hc].
  - (* both on the grid of e *)
    assert (hva' : (f64_val a == inject_Z (G * 2 ^ (g - e)) * 2 ^ e)%Q).
    { rewrite hva. apply (@scaled_eq _ g _ e e); try lia. rewrite Z.sub_diag, Z.pow_0_r. lia. }
    rewrite hv, hva' in hlt. apply Qmult_lt_r in hlt; [|exact pe]. rewrite <- Zlt_Qlt in hlt.
    assert (hle : G * 2 ^ (g - e) + 1 <= R) by lia. rewrite Zle_Qle, inject_Z_plus in hle. change (inject_Z 1) with 1%Q in hle.
    assert ((inject_Z (G * 2 ^ (g - e)) + 1) * 2 ^ e <= inject_Z R * 2 ^ e)%Q by (apply Qmult_le_compat_r; lra).
    lra.
  - (* |a| < |x| *)
    assert (ha2 : (- 2 ^ (e + 23) <= f64_val a)%Q /\ (f64_val a <= 2 ^ (e + 23))%Q).
    { assert (hb : (inject_Z (2 ^ 24) * 2 ^ g <= 2 ^ (e + 23))%Q).
      { change (inject_Z (2 ^ 24)) with (2 ^ 24)%Q. rewrite <- Qpower_plus by discriminate. apply pow2_le. lia. }
      rewrite hva. destruct hG as [hG1 hG2]. rewrite Zle_Qle in hG1, hG2. rewrite inject_Z_opp in hG1. split; nra. }
    assert (hyx : (f64_val a < x \/ f64_val y <= f64_val a \/ x == f64_val a /\ x == 2 ^ (e + 23))%Q).
    { destruct h3 as [->|[h3|h3]]; [lia| |].
      - destruct (Qlt_le_dec (f64_val a) x) as [|h]; [auto|]. right. right. lra.
      - right. left.
        assert (hR2 : (inject_Z R * 2 ^ e <= (- inject_Z (2 ^ 23) + (1 # 2)) * 2 ^ e)%Q).
        { rewrite <- hv. rewrite Z.add_comm, Qpower_plus in h3 by discriminate. change (2 ^ 23)%Q with (inject_Z (2 ^ 23)) in h3. lra. }
        apply Qmult_le_r in hR2; [|exact pe].
        assert (hR3 : R <= - 2 ^ 23). { assert (R < - 2 ^ 23 + 1); [|lia]. rewrite Zlt_Qlt, inject_Z_plus, inject_Z_opp. change (inject_Z 1) with 1%Q. lra. }
        rewrite Zle_Qle, inject_Z_opp in hR3.
        assert (inject_Z R * 2 ^ e <= - 2 ^ (e + 23))%Q; [|lra].
        rewrite Z.add_comm, Qpower_plus by discriminate. change (2 ^ 23)%Q with (inject_Z (2 ^ 23)). nra. }
    destruct hyx as [h|[h|[h h']]]; [lra|lra|].
    (* x is exactly 2^(e+23): then y = x *)
    rewrite h' in h1, h2. rewrite Z.add_comm, Qpower_plus in h1, h2, h' by discriminate.
    change (2 ^ 23)%Q with (inject_Z (2 ^ 23)) in *. rewrite hv in h1, h2, hlt.
    assert (hR3 : R <= 2 ^ 23).
    { assert (R < 2 ^ 23 + 1); [|lia]. rewrite Zlt_Qlt, inject_Z_plus. change (inject_Z 1) with 1%Q.
      assert ((inject_Z R - inject_Z (2 ^ 23)) * 2 ^ e <= (1 # 2) * 2 ^ e)%Q by lra.
      assert (inject_Z R - inject_Z (2 ^ 23) <= 1 # 2)%Q by (apply Qmult_le_r in H; [exact H|exact pe]). lra. }
    rewrite Zle_Qle in hR3. assert (inject_Z R * 2 ^ e <= inject_Z (2 ^ 23) * 2 ^ e)%Q by (apply Qmult_le_compat_r; lra). lra.
Qed.

Lemma rounds_opp32 x y : rounds32 x y -> rounds32 (- x) (SFopp y).
Proof.
  intros (hf & R & e & hR & he & hv & h1 & h2 & h3). split; [apply finite_opp32; exact hf|].
  exists (- R), e. rewrite val_opp, inject_Z_opp. split; [lia|]. split; [exact he|]. split; [rewrite hv; ring|].
  split; [lra|]. split; [lra|]. destruct h3 as [h3|[h3|h3]]; [auto|right; right; lra|right; left; lra].
Qed.

Lemma rounds_ge32 x y a : rounds32 x y -> sf_finite a -> (f64_val a <= x)%Q -> (f64_val a <= f64_val y)%Q.
Proof.
  intros h ha hx. apply rounds_opp32 in h. pose proof (rounds_le32 (SFopp a) h (finite_opp32 _ ha)) as hl.
  rewrite !val_opp in hl. lra.
Qed.

Open Scope Q_scope.
Lemma rounds_near32 x y B : rounds32 x y -> on_min_grid32 x -> - B <= x -> x <= B -> close (2 ^ (-24) * B) x y.
Proof.
  intros h hg h1 h2. pose proof (rounds_error32 h hg) as he. unfold close.
  assert (pp : 0 < 2 ^ (-24)) by reflexivity. set (u := 2 ^ (-24)) in *.
  assert (u1 : u * x <= u * B) by (rewrite !(Qmult_comm u); apply Qmult_le_compat_r; lra).
  assert (u2 : - (u * B) <= u * x).
  { assert (u * (- B) <= u * x) by (rewrite !(Qmult_comm u); apply Qmult_le_compat_r; lra). lra. }
  lra.
Qed.

Lemma add_near32 a b B : sf_finite a -> sf_finite b -> - B <= f64_val a + f64_val b -> f64_val a + f64_val b <= B ->
  B <= 2 ^ 127 ->
  sf_finite (SFadd sprec semax a b) /\ close (2 ^ (-24) * B) (f64_val a + f64_val b) (SFadd sprec semax a b).
Proof.
  intros ha hb h1 h2 hB.
  assert (hr : rounds32 (f64_val a + f64_val b) (SFadd sprec semax a b)) by (apply add_rounds32; auto; lra).
  split; [apply hr|]. apply rounds_near32; auto. apply min_grid_add32; apply finite_min_grid32; auto.
Qed.

Lemma sub_near32 a b B : sf_finite a -> sf_finite b -> - B <= f64_val a - f64_val b -> f64_val a - f64_val b <= B ->
  B <= 2 ^ 127 ->
  sf_finite (SFsub sprec semax a b) /\ close (2 ^ (-24) * B) (f64_val a - f64_val b) (SFsub sprec semax a b).
Proof.
  intros ha hb h1 h2 hB. rewrite sub_add32 by auto.
  pose proof (finite_opp32 _ hb) as hb'. pose proof (val_opp b) as ho.
  destruct (@add_near32 a (SFopp b) B ha hb') as [g1 g2]; [lra|lra|auto|].
  split; [auto|]. eapply close_ext; [reflexivity| |exact g2]. lra.
Qed.

Lemma gap32 a b : sf_finite a -> sf_finite b -> 0 <= f64_val a -> f64_val a < f64_val b ->
  f64_val a * 2 ^ (-24) <= f64_val b - f64_val a.
Proof.
  intros ha hb h0 hlt.
  destruct (rounds_refl32 a ha) as (_ & A & e & hA & he & va & _ & _ & ca).
  destruct (rounds_refl32 b hb) as (_ & B & g & hB & hg & vb & _ & _ & _).
  pose proof (pow2_pos e) as pe. pose proof (pow2_pos g) as pg.
  assert (ha24 : f64_val a * 2 ^ (-24) <= 2 ^ e).
  { rewrite va. assert (h : inject_Z A <= 2 ^ 24) by (change (2 ^ 24) with (inject_Z (2 ^ 24)); rewrite <- Zle_Qle; lia).
    assert (h' : inject_Z A * 2 ^ e <= 2 ^ 24 * 2 ^ e) by (apply Qmult_le_compat_r; lra).
    assert (h'' : inject_Z A * 2 ^ e * 2 ^ (-24) <= 2 ^ 24 * 2 ^ e * 2 ^ (-24)) by (apply Qmult_le_compat_r; [auto|discriminate]).
    assert (e1 : 2 ^ 24 * 2 ^ e * 2 ^ (-24) == 2 ^ e) by (change (2 ^ (-24)) with (/ (2 ^ 24)); field; discriminate). lra. }
  destruct (Z_le_gt_dec e g) as [hc|hc].
  - assert (vb' : f64_val b == inject_Z (B * 2 ^ (g - e)) * 2 ^ e).
    { rewrite vb. apply (@scaled_eq _ g _ e e); try lia. rewrite Z.sub_diag, Z.pow_0_r. lia. }
    rewrite va, vb' in hlt. apply Qmult_lt_r in hlt; [|exact pe]. rewrite <- Zlt_Qlt in hlt.
    assert (hle : (A + 1 <= B * 2 ^ (g - e))%Z) by lia. rewrite Zle_Qle, inject_Z_plus in hle. change (inject_Z 1) with 1%Q in hle.
    assert ((inject_Z A + 1) * 2 ^ e <= inject_Z (B * 2 ^ (g - e)) * 2 ^ e) by (apply Qmult_le_compat_r; lra).
    rewrite vb'. lra.
  - exfalso. assert (h23 : 2 ^ (e + 23) <= f64_val a).
    { destruct ca as [->|[h|h]]; [lia|auto|]. pose proof (pow2_pos (e + 23)). lra. }
    assert (hb' : f64_val b <= 2 ^ (e + 23)).
    { rewrite vb. assert (h : inject_Z B <= 2 ^ 24) by (change (2 ^ 24) with (inject_Z (2 ^ 24)); rewrite <- Zle_Qle; lia).
      assert (h' : inject_Z B * 2 ^ g <= 2 ^ 24 * 2 ^ g) by (apply Qmult_le_compat_r; lra).
      rewrite <- Qpower_plus in h' by discriminate. assert (2 ^ (24 + g) <= 2 ^ (e + 23)) by (apply pow2_le; lia). lra. }
    lra.
Qed.

Lemma SFleb_val32 x y : sf_finite x -> sf_finite y -> (SFleb x y = true <-> f64_val x <= f64_val y).
Proof.
  intros hx hy. unfold SFleb. rewrite SFcompare_val32 by auto.
  destruct (Qcompare_spec (f64_val x) (f64_val y)); split; intros; try discriminate; try reflexivity; lra.
Qed.

Global Instance Fmt_f32 : LossFmt f32.
Proof.
  refine (@Build_LossFmt f32 NumL_f32 (fun x => sf_finite (sf32 x)) (fun x => f64_val (sf32 x)) (2 ^ (-24)) (2 ^ 127) eq_refl _ eq_refl I eq_refl
    (fun a b => SFltb_val32 (sf32 a) (sf32 b)) (fun a b => SFleb_val32 (sf32 a) (sf32 b)) _ _ _ _ _ _ (fun a b => @gap32 (sf32 a) (sf32 b)));
    cbn [lzero ladd lsub lneg lltb lleb NumL_f32 sf32].
  - vm_compute. discriminate.
  - intros a h. split; [apply finite_opp32; exact h|apply val_opp].
  - intros a b B ha hb h1 h2 h3. destruct (@add_near32 (sf32 a) (sf32 b) B ha hb h1 h2 h3) as [g1 g2]. split; [exact g1|exact g2].
  - intros a b B ha hb h1 h2 h3. destruct (@sub_near32 (sf32 a) (sf32 b) B ha hb h1 h2 h3) as [g1 g2]. split; [exact g1|exact g2].
  - intros a b c ha hb hc h1 h2 h. apply (@rounds_le32 _ _ (sf32 c) (add_rounds32 _ _ ha hb h1 h2) hc h).
  - intros a b c ha hb hc h1 h2 h. apply (@rounds_ge32 _ _ (sf32 c) (add_rounds32 _ _ ha hb h1 h2) hc h).
  - intros a b ha hb h1 h. assert (h2 : f64_val (sf32 a) - f64_val (sf32 b) <= 2 ^ 127).
    { assert (0 < 2 ^ 127) by reflexivity. lra. }
    pose proof (@rounds_le32 _ _ (S754_zero false) (sub_rounds32 _ _ ha hb h1 h2) I) as g. cbn [f64_val] in g. apply g. lra.
Defined.

(** ** conversion *)
Lemma exact_f32 M n D : nonneg_matrix (Nt := f32) M n D -> exact_in (Lt := f32) n D.
Proof. intros h x y hx hy. destruct (proj2 h x y hx hy) as [h1 _]. split; [exact h1|reflexivity]. Qed.

Lemma of_Z_exact32 z : (Z.abs z <= 65535)%Z -> sf_finite (binary_normalize sprec semax z 0 false) /\
  f64_val (binary_normalize sprec semax z 0 false) == inject_Z z.
Proof.
  intros h. assert (hb : - inject_Z 65535 <= inject_Z z /\ inject_Z z <= inject_Z 65535).
  { rewrite <- inject_Z_opp, <- !Zle_Qle. lia. }
  assert (hr : rounds32 (inject_Z z * 2 ^ 0) (binary_normalize sprec semax z 0 false)).
  { apply normalize_rounds32; change (2 ^ 0) with 1; assert (inject_Z 65535 <= 2 ^ 127) by (vm_compute; discriminate); lra. }
  apply rounds_ext32 with (x' := inject_Z z) in hr; [|change (2 ^ 0) with 1; ring].
  split; [apply hr|]. destruct hr as (_ & R & e & hR & he & hv & h1 & h2 & h3).
  assert (he0 : (e < 0)%Z \/ (0 <= e)%Z) by lia. pose proof (pow2_pos e) as pe.
  destruct he0 as [he0|he0].
  - (* on the grid of e *)
    assert (hz : inject_Z z == inject_Z (z * 2 ^ (- e)) * 2 ^ e).
    { rewrite inject_Z_mult. change (inject_Z (2 ^ (- e))) with (inject_Z (2 ^ (- e))). rewrite Zpower_Qpower by lia.
      change (inject_Z 2) with 2. rewrite <- Qmult_assoc, <- Qpower_plus by discriminate. replace (- e + e)%Z with 0%Z by lia. change (2 ^ 0) with 1. ring. }
    rewrite hv. rewrite hv, hz in h1, h2. set (w := (z * 2 ^ (- e))%Z) in *.
    assert (a1 : inject_Z (R - w) * 2 ^ e <= (1 # 2) * 2 ^ e) by (unfold Z.sub; rewrite inject_Z_plus, inject_Z_opp; lra).
    assert (a2 : (- (1 # 2)) * 2 ^ e <= inject_Z (R - w) * 2 ^ e) by (unfold Z.sub; rewrite inject_Z_plus, inject_Z_opp; lra).
    apply Qmult_le_r in a1; [|exact pe]. apply Qmult_le_r in a2; [|exact pe].
    assert (R - w < 1)%Z by (rewrite Zlt_Qlt; change (inject_Z 1) with 1; lra).
    assert (-1 < R - w)%Z by (rewrite Zlt_Qlt; change (inject_Z (-1)) with (-1); lra).
    rewrite hz. replace R with w by lia. reflexivity.
  - exfalso. assert (hp : 2 ^ 23 <= 2 ^ (e + 23)) by (apply pow2_le; lia).
    assert (inject_Z 65535 < 2 ^ 23) by reflexivity.
    destruct h3 as [h3|[h3|h3]]; [lia|lra|lra].
Qed.

Lemma exact_Z32 M n D : nonneg_matrix (Nt := Z) M n D -> (forall x y, (x < n)%nat -> (y < n)%nat -> (D x y <= 65535)%Z) ->
  exact_in (Lt := f32) n D.
Proof.
  intros h hb x y hx hy. destruct (proj2 h x y hx hy) as [_ h2]. specialize (hb x y hx hy).
  apply of_Z_exact32. change (0 <= inject_Z (D x y)) in h2. rewrite <- (Zle_Qle 0) in h2. lia.
Qed.

(** ** termination *)
Lemma sf_nonneg x : sf_finite x -> 0 <= f64_val x -> f64_nonneg x.
Proof.
  destruct x as [s|s| |s m e]; cbn [sf_finite f64_nonneg]; try tauto; intros h h0. destruct s; [|reflexivity]. exfalso.
  cbn [f64_val] in h0. rewrite neg_val in h0. pose proof (f64_pos m e). lra.
Qed.

Global Instance LossOrder_f32_f32 : @LossOrder f32 f32 _ _ _ _.
Proof.
  refine {| okL := fun x : f32 => f64_nonneg (sf32 x) |}.
  - exact I.
  - intros x h1 h2. apply sf_nonneg; [exact h1|exact h2].
  - intros a b. exact (@add_nonneg sprec semax (sf32 a) (sf32 b)).
  - intros a. exact (@SFleb_refl (sf32 a)).
  - intros a b c. exact (@SFleb_trans (sf32 a) (sf32 b) (sf32 c)).
  - intros a b. exact (@SFleb_total (sf32 a) (sf32 b)).
  - intros a b. exact (@SFltb_SFleb (sf32 a) (sf32 b)).
Defined.

Global Instance LossOrder_Z_f32 : @LossOrder Z f32 _ _ _ _.
Proof.
  refine {| okL := fun x : f32 => f64_nonneg (sf32 x) |}.
  - exact I.
  - intros x _ h. apply normalize_nonneg. cbn [vN] in h. change 0 with (inject_Z 0) in h. rewrite <- Zle_Qle in h. exact h.
  - intros a b. exact (@add_nonneg sprec semax (sf32 a) (sf32 b)).
  - intros a. exact (@SFleb_refl (sf32 a)).
  - intros a b c. exact (@SFleb_trans (sf32 a) (sf32 b) (sf32 c)).
  - intros a b. exact (@SFleb_total (sf32 a) (sf32 b)).
  - intros a b. exact (@SFltb_SFleb (sf32 a) (sf32 b)).
Defined.
Lemma same_losses_Z32 n D : same_losses (Nt := Z) (Lt := f32) n D.
Proof. intros o x y _ _ _ e. unfold vals in e. cbn [vN] in e. rewrite inject_Z_injective in e. congruence. Qed.

Lemma same_losses_f32' M n D : diss_matrix M n D -> no_negative_zero32 n D -> same_losses (Nt := f32) (Lt := f32) n D.
Proof.
  intros HD hz o x y ho hx hy e. cbn [lfrom FromN_f32_f32].
  assert (h : sf32 (D o x) = sf32 (D o y)).
  { apply sf_val_inj; auto; apply (proj2 (proj2 HD)); auto. }
  destruct (D o x) as [u], (D o y) as [w]. cbn in h. congruence.
Qed.
