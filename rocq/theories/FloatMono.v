(** FloatMono.v -- binary64: rounding is monotone, and so is the step from the sum of the ratios to the
    reported silhouette; when sums of two dissimilarities are rounded correctly *)
From Coq Require Import ZArith QArith Qpower Lqa Lia.
From Coq.Floats Require Import SpecFloat.
From Verif Require Import Base Num M_Mat M_Util M_Silhouette M_Msc Inst Hoare Spec Laws FloatFacts FloatExact FloatRound SilFacts PamShape FloatSil FloatMain TermFloat FloatFmt FloatMsc.
Set Implicit Arguments.
Open Scope Q_scope.

(** a number is rounded up only if it is in the upper half of the gap *)
Lemma rounds_up x y a : rounds x y -> f64_finite a -> f64_val a < x -> x < f64_val y -> 2 * (f64_val y - x) <= f64_val y - f64_val a.
Proof.
  intros (_ & R & e & hR & he & hv & h1 & h2 & h3) ha hx hy.
  destruct (rounds_refl a ha) as (_ & G & g & hG & hg & hva & _ & _ & hg3).
  pose proof (pow2_pos e) as pe. pose proof (pow2_pos g) as pg.
  assert (h : f64_val a <= f64_val y - 2 ^ e); [|lra].
  destruct (Z_le_gt_dec e g) as [hc|hc].
  - assert (hva' : f64_val a == inject_Z (G * 2 ^ (g - e)) * 2 ^ e).
    { rewrite hva. apply (@scaled_eq _ g _ e e); try lia. rewrite Z.sub_diag, Z.pow_0_r. lia. }
    assert (hlt : f64_val a < f64_val y) by lra.
    rewrite hv, hva' in hlt. apply Qmult_lt_r in hlt; [|exact pe]. rewrite <- Zlt_Qlt in hlt.
    assert (hle : (G * 2 ^ (g - e) + 1 <= R)%Z) by lia. rewrite Zle_Qle, inject_Z_plus in hle. change (inject_Z 1) with 1 in hle.
    assert ((inject_Z (G * 2 ^ (g - e)) + 1) * 2 ^ e <= inject_Z R * 2 ^ e) by (apply Qmult_le_compat_r; lra). lra.
  - assert (ha2 : - 2 ^ (e + 52) <= f64_val a /\ f64_val a <= 2 ^ (e + 52)).
    { assert (hb : inject_Z (2 ^ 53) * 2 ^ g <= 2 ^ (e + 52)).
      { change (inject_Z (2 ^ 53)) with (2 ^ 53). rewrite <- Qpower_plus by discriminate. apply pow2_le. lia. }
      rewrite hva. destruct hG as [hG1 hG2]. rewrite Zle_Qle in hG1, hG2. rewrite inject_Z_opp in hG1. split; nra. }
    destruct h3 as [->|[h3|h3]]; [lia| |lra].
    assert (e52 : 2 ^ (e + 52) == inject_Z (2 ^ 52) * 2 ^ e).
    { rewrite Z.add_comm, Qpower_plus by discriminate. change (2 ^ 52) with (inject_Z (2 ^ 52)). reflexivity. }
    assert (hlt : inject_Z (2 ^ 52) * 2 ^ e < inject_Z R * 2 ^ e) by lra.
    apply Qmult_lt_r in hlt; [|exact pe]. rewrite <- Zlt_Qlt in hlt.
    assert (hle : (2 ^ 52 + 1 <= R)%Z) by lia. rewrite Zle_Qle, inject_Z_plus in hle. change (inject_Z 1) with 1 in hle.
    assert ((inject_Z (2 ^ 52) + 1) * 2 ^ e <= inject_Z R * 2 ^ e) by (apply Qmult_le_compat_r; lra). lra.
Qed.

Lemma rounds_mono x y x' y' : rounds x y -> rounds x' y' -> x < x' -> f64_val y <= f64_val y'.
Proof.
  intros h h' hx. pose proof (proj1 h) as f. pose proof (proj1 h') as f'.
  destruct (Qlt_le_dec (f64_val y') (f64_val y)) as [hlt|]; [exfalso|assumption].
  assert (h1 : f64_val y' < x).
  { destruct (Qlt_le_dec (f64_val y') x) as [|c]; [assumption|]. pose proof (rounds_le _ h f' c). lra. }
  assert (h2 : x' < f64_val y).
  { destruct (Qlt_le_dec x' (f64_val y)) as [|c]; [assumption|]. pose proof (rounds_ge _ h' f c). lra. }
  pose proof (rounds_up y' h f' h1 ltac:(lra)) as u1.
  apply rounds_opp in h'. pose proof (rounds_up (SFopp y) h' (finite_opp _ f)) as u2. rewrite !val_opp in u2.
  specialize (u2 ltac:(lra) ltac:(lra)). lra.
Qed.

(** rounding a number which depends on a number *)
Lemma rounds_fun (x y fx fy : f64) (q : Q -> Q) : f64_finite x -> f64_finite y -> (x = y -> fx = fy) ->
  (forall a b, a == b -> q a == q b) -> (exists z, f64_finite z /\ f64_val z == q 0) ->
  rounds (q (f64_val x)) fx -> rounds (q (f64_val y)) fy -> f64_val x == f64_val y -> f64_val fx == f64_val fy.
Proof.
  intros hx hy hf hq (z & z1 & z2) h1 h2 e. destruct (Qeq_dec (f64_val x) 0) as [ez|nz].
  - assert (ez' : f64_val y == 0) by lra.
    assert (hz : forall r w, r == 0 -> rounds (q r) w -> f64_val w == q 0).
    { intros r w er hw. pose proof (hq _ _ er) as eq.
      pose proof (rounds_le z hw z1 ltac:(lra)). pose proof (rounds_ge z hw z1 ltac:(lra)). lra. }
    rewrite (hz _ _ ez h1), (hz _ _ ez' h2). reflexivity.
  - rewrite hf; [reflexivity|]. apply f64_val_inj; auto.
    + intros ->. apply nz. reflexivity.
    + intros ->. apply nz. rewrite e. reflexivity.
Qed.

(** the reported silhouette goes down when the sum of the ratios goes up *)
Lemma silhouette_mono n (a b : f64) : (1 <= n)%nat -> (N.of_nat n <= 4294967295)%N ->
  within 0 (cnt n) a -> within 0 (cnt n) b -> f64_val a <= f64_val b ->
  f64_val (lsub lone (ldiv b (lfrom_u32 (as_u32 n)))) <= f64_val (lsub lone (ldiv a (lfrom_u32 (as_u32 n)))).
Proof.
  intros hn hu (a1 & a2 & a3) (b1 & b2 & b3) hab. rewrite as_u32_small by exact hu. cbn [lfrom_u32 ldiv NumL_f64]. rewrite nat_N_Z.
  destruct (@of_nat_val n) as [f1 f2]; [apply fits_u32; exact hu|].
  assert (hp : 0 < cnt n) by (unfold cnt; change 0 with (inject_Z 0); rewrite <- Zlt_Qlt; lia).
  set (N := f64_of_Z (Z.of_nat n)) in *.
  assert (hB : 1 <= 2 ^ 1023) by (apply Qlt_le_weak; reflexivity).
  assert (hd : forall x, f64_finite x -> 0 <= f64_val x -> f64_val x <= cnt n ->
    rounds (f64_val x / f64_val N) (SFdiv fprec femax x N) /\ within 0 1 (SFdiv fprec femax x N)).
  { intros x x1 x2 x3.
    assert (q0 : 0 <= f64_val x / f64_val N) by (apply Qle_shift_div_l; [rewrite f2; exact hp|lra]).
    assert (q1 : f64_val x / f64_val N <= 1) by (apply Qle_shift_div_r; [rewrite f2; exact hp|lra]).
    pose proof (@div_rounds x N x1 f1 ltac:(rewrite f2; lra) ltac:(lra) ltac:(lra)) as h. split; [exact h|].
    apply rounds_within with (f64_val x / f64_val N); auto using repr_0, repr_1. }
  destruct (hd a a1 a2 a3) as [ra (wa1 & wa2 & wa3)]. destruct (hd b b1 b2 b3) as [rb (wb1 & wb2 & wb3)].
  set (qa := SFdiv fprec femax a N) in *. set (qb := SFdiv fprec femax b N) in *.
  assert (hs : forall x, f64_finite x -> 0 <= f64_val x -> f64_val x <= 1 ->
    rounds (1 - f64_val x) (lsub (lone : f64) x)).
  { intros x x1 x2 x3. assert (e1 : f64_val (lone : f64) == 1) by reflexivity.
    pose proof (@sub_rounds lone x eq_refl x1 ltac:(rewrite e1; lra) ltac:(rewrite e1; lra)) as h.
    eapply rounds_ext; [|exact h]. rewrite e1. reflexivity. }
  assert (hq : f64_val qa < f64_val qb \/ f64_val qa == f64_val qb).
  { destruct (Qlt_le_dec (f64_val a) (f64_val b)) as [hlt|hge].
    - assert (hx : f64_val a / f64_val N < f64_val b / f64_val N).
      { unfold Qdiv. apply Qmult_lt_r; [|exact hlt]. apply Qinv_lt_0_compat. rewrite f2. exact hp. }
      pose proof (rounds_mono ra rb hx) as h. destruct (Qlt_le_dec (f64_val qa) (f64_val qb)); [auto|right; lra].
    - right. assert (e : f64_val a == f64_val b) by lra.
      assert (rb' : rounds (f64_val a / f64_val N) qb) by (eapply rounds_ext; [|exact rb]; rewrite e; reflexivity).
      clear rb. apply (@rounds_fun a b qa qb (fun r => r / f64_val N)); auto.
      + intros ->. reflexivity.
      + intros r r' er. rewrite er. reflexivity.
      + exists lzero. split; [exact I|]. unfold Qdiv. rewrite Qmult_0_l. reflexivity.
      + eapply rounds_ext; [|exact rb']. rewrite e. reflexivity. }
  destruct hq as [hq|hq].
  - eapply rounds_mono; [apply (hs qb); auto|apply (hs qa); auto|lra].
  - apply Qle_lteq. right. symmetry. apply (@rounds_fun qa qb _ _ (fun r => 1 - r)); auto.
    + intros ->. reflexivity.
    + intros r r' er. rewrite er. reflexivity.
    + exists lone. split; [reflexivity|]. reflexivity.
Qed.

(** ** sums of two dissimilarities *)
Lemma f64_adds_near M n (D : nat -> nat -> f64) : nonneg_matrix M n D ->
  (forall x y, (x < n)%nat -> (y < n)%nat -> f64_val (D x y) <= 2 ^ 1022) -> adds_near n D.
Proof.
  intros h hb o x y ho hx hy. destruct (proj2 h o x ho hx) as [fx px]. destruct (proj2 h o y ho hy) as [fy py].
  change (0 <= f64_val (D o x)) in px. change (0 <= f64_val (D o y)) in py. pose proof (hb o x ho hx) as bx. pose proof (hb o y ho hy) as b_y.
  assert (e : 2 ^ 1023 == 2 * 2 ^ 1022) by reflexivity.
  pose proof (pow2_pos 1022) as pp.
  pose proof (@add_rounds (D o x) (D o y) fx fy ltac:(lra) ltac:(lra)) as hr.
  pose proof (rounds_error hr (min_grid_add (finite_min_grid _ fx) (finite_min_grid _ fy))) as [h1 h2].
  split; [apply hr|]. split; [apply hr|]. split; [reflexivity|].
  change (vals D o x) with (f64_val (D o x)). change (vals D o y) with (f64_val (D o y)).
  unfold close. change (lfrom (nadd (D o x) (D o y))) with (SFadd fprec femax (D o x) (D o y)).
  set (s := f64_val (D o x) + f64_val (D o y)) in *. assert (0 <= s) by (unfold s; lra).
  assert (0 <= 2 ^ (-53) * s) by (apply Qmult_le_0_compat; [apply Qlt_le_weak; reflexivity|auto]).
  split; [destruct h2; lra|destruct h1; lra].
Qed.

Lemma int_adds_near n (D : nat -> nat -> Z) :
  (forall x y, (x < n)%nat -> (y < n)%nat -> (0 <= D x y <= 2 ^ 52)%Z) -> adds_near n D.
Proof.
  intros h o x y ho hx hy. pose proof (h o x ho hx) as h1. pose proof (h o y ho hy) as h2.
  assert (hs : (Z.abs (D o x + D o y) <= 2 ^ 53)%Z) by (change (2 ^ 53)%Z with (2 ^ 52 + 2 ^ 52)%Z; lia).
  destruct (FloatExact.grid_of_Z _ hs) as [g1 g2].
  assert (e : f64_val (f64_of_Z (D o x + D o y)) == inject_Z (D o x + D o y)).
  { rewrite g2. change (2 ^ 0) with 1. ring. }
  split; [exact I|]. split; [exact g1|]. split; [exact e|].
  change (vals D o x) with (inject_Z (D o x)). change (vals D o y) with (inject_Z (D o y)).
  assert (p1 : 0 <= inject_Z (D o x)) by (change 0 with (inject_Z 0); rewrite <- Zle_Qle; lia).
  assert (p2 : 0 <= inject_Z (D o y)) by (change 0 with (inject_Z 0); rewrite <- Zle_Qle; lia).
  assert (p3 : 0 <= 2 ^ (-53) * (inject_Z (D o x) + inject_Z (D o y))).
  { apply Qmult_le_0_compat; [apply Qlt_le_weak; reflexivity|lra]. }
  unfold close. change (lfrom (nadd (D o x) (D o y))) with (f64_of_Z (D o x + D o y)). rewrite e, inject_Z_plus. lra.
Qed.
