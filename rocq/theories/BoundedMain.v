(** BoundedMain.v -- loss types which are exact up to a bound: w-bit integers with wrap-around, and
    binary64 on multiples of a power of two. *)
From Coq Require Import ZArith QArith Qround Qpower Lqa Lia.
From Coq.Floats Require Import SpecFloat.
From Verif Require Import Base Num M_Mat Inst Spec Laws FloatFacts Bounded FloatExact Adapter.
Set Implicit Arguments.
Open Scope Z_scope.

(** The loss type [Lt] represents the integers up to [B] exactly ([rep]), [val] is the number a loss
    stands for, and converting a dissimilarity is exact. *)
Record BoundLaws {Nt Lt} `{HN : NumN Nt} `{HO : !OrdLaws Nt} `{HFZ : FromN Nt Z} `{HLZ : !LossLaws Nt Z}
    `{HL : NumL Lt} `{HF : FromN Nt Lt} (B : Z) (rep : Lt -> Z -> Prop) (val : Lt -> Q) : Prop := {
  bl_repr : Repr B rep;
  bl_val : forall a z, rep a z -> (val a == vL z)%Q;
  bl_from : forall x, okN x -> Z.abs (lfrom x) <= B -> rep (lfrom x) (lfrom x)
}.

(** ** machine integers of [w] bits, two's complement, wrapping around on overflow (the behaviour of
    release builds; debug builds panic instead) *)
Record mint (w : Z) := MInt { ival : Z }.
Arguments MInt {w} _.
Arguments ival {w} _.

Definition wrap (w z : Z) : Z := (z + 2 ^ (w - 1)) mod 2 ^ w - 2 ^ (w - 1).

Global Instance NumL_mint w : NumL (mint w) := {|
  lzero := MInt 0; lone := MInt 1;
  ladd := fun a b => MInt (wrap w (ival a + ival b));
  lsub := fun a b => MInt (wrap w (ival a - ival b));
  lneg := fun a => MInt (wrap w (- ival a));
  ldiv := fun a b => MInt (wrap w (Z.quot (ival a) (ival b)));
  lltb := fun a b => ival a <? ival b; lleb := fun a b => ival a <=? ival b;
  lfrom_u32 := fun n => MInt (wrap w (Z.of_N n))
|}.
Global Instance FromN_Z_mint w : FromN Z (mint w) := {| lfrom := fun z => MInt (wrap w z) |}.

(** largest value *)
Definition imax (w : Z) : Z := 2 ^ (w - 1) - 1.

Lemma wrap_id w z : 1 <= w -> Z.abs z <= imax w -> wrap w z = z.
Proof.
  unfold wrap, imax. intros hw h.
  assert (e : 2 ^ w = 2 * 2 ^ (w - 1)) by (rewrite <- Z.pow_succ_r by lia; f_equal; lia).
  rewrite Z.mod_small; lia.
Qed.

Definition int_rep {w} (a : mint w) (z : Z) : Prop := ival a = z.

Lemma Repr_mint w : 1 <= w -> Repr (Lt := mint w) (imax w) int_rep.
Proof.
  unfold int_rep. intros hw. split; cbn [lzero ladd lsub lneg lltb lleb NumL_mint ival].
  - reflexivity.
  - intros a b x y <- <- h. apply wrap_id; auto.
  - intros a b x y <- <- h. apply wrap_id; auto.
  - intros a x <- h. apply wrap_id; auto. lia.
  - intros a b x y <- <-. reflexivity.
  - intros a b x y <- <-. reflexivity.
Qed.

Lemma mint_laws w : 1 <= w ->
  BoundLaws (Nt := Z) (Lt := mint w) (imax w) int_rep (fun a => inject_Z (ival a)).
Proof.
  intros hw. split.
  - apply Repr_mint. auto.
  - intros a z <-. reflexivity.
  - intros x _ h. apply wrap_id; auto.
Qed.

(** ** integer dissimilarities, binary64 losses *)
Lemma Z_f64_laws : BoundLaws (Nt := Z) (Lt := f64) (2 ^ 53) (f64_grid 0) f64_val.
Proof.
  split.
  - apply Repr_f64. lia.
  - intros a z [_ h]. rewrite h. cbn [vL LossLaws_Z_Z]. rewrite Qmult_1_r. reflexivity.
  - intros x _ h. apply grid_of_Z. exact h.
Qed.

(** ** binary64 dissimilarities that are multiples of [2^g] *)
Section Grid.
  Variable g : Z.
  Hypothesis Hg : -1074 <= g <= 970.


  Definition OrdLaws_grid : OrdLaws f64.
  Proof.
    refine {| okN := fun x => exists z, f64_grid g x z; vN := f64_val |}; cbn [nzero nltb neqb nis_zero NumN_f64].
    - exists 0. apply (rp_zero (Repr_f64 Hg)).
    - reflexivity.
    - intros a b (x & ha & _) (y & hb & _). apply SFltb_val; auto.
    - intros a b (x & ha & _) (y & hb & _). apply SFeqb_val; auto.
    - intros a (x & ha & _). rewrite SFeqb_val by (auto; exact I). cbn [f64_val]. split; intros h; rewrite h; reflexivity.
  Defined.

  (** the multiple *)
  Definition FromN_grid : FromN f64 Z := {| lfrom := fun x => Qfloor (f64_val x * 2 ^ (- g)) |}.

  Lemma grid_int x z : f64_grid g x z -> @lfrom _ _ FromN_grid x = z.
  Proof.
    intros [_ h]. cbn [lfrom FromN_grid]. rewrite h, <- Qmult_assoc, <- Qpower_plus, Z.add_opp_diag_r by discriminate.
    rewrite Qmult_1_r. apply Qfloor_Z.
  Qed.

  Definition LossLaws_grid : @LossLaws f64 Z NumN_f64 OrdLaws_grid NumL_Z FromN_grid.
  Proof.
    pose proof (pow2_pos g) as p.
    refine {| vL := fun z => (inject_Z z * 2 ^ g)%Q |}; cbn [lzero ladd lsub lneg lltb lleb NumL_Z].
    - rewrite Qmult_0_l. reflexivity.
    - intros a b. rewrite inject_Z_plus. ring.
    - intros a b. unfold Z.sub. rewrite inject_Z_plus, inject_Z_opp. ring.
    - intros a. rewrite inject_Z_opp. ring.
    - intros a b. rewrite Z.ltb_lt, Zlt_Qlt. symmetry. apply Qmult_lt_r. exact p.
    - intros a b. rewrite Z.leb_le, Zle_Qle. symmetry. apply Qmult_le_r. exact p.
    - intros x (z & h). rewrite (grid_int h). symmetry. apply h.
  Defined.

  Lemma grid_laws : @BoundLaws f64 f64 NumN_f64 OrdLaws_grid FromN_grid LossLaws_grid _ _ (2 ^ 53) (f64_grid g) f64_val.
  Proof.
    split.
    - apply Repr_f64. exact Hg.
    - intros a z [_ h]. exact h.
    - intros x (z & h) _. rewrite (grid_int h). exact h.
  Qed.
End Grid.

(** ** the simulation on a dissimilarity matrix *)
Section Main.
  Context {Nt Lt : Type} `{HN : NumN Nt} `{HO : !OrdLaws Nt} `{HFZ : FromN Nt Z} `{HLZ : !LossLaws Nt Z}
    `{HL : NumL Lt} `{HF : FromN Nt Lt}.
  Variables (B m : Z) (rep : Lt -> Z -> Prop) (val : Lt -> Q).
  Hypothesis HB : BoundLaws B rep val.
  Variables (M : Mat Nt) (n : nat) (D : nat -> nat -> Nt).
  Hypothesis HD : diss_matrix M n D.
  Hypothesis Hn : (1 <= n)%nat.
  Hypothesis Hm : forall x y, (x < n)%nat -> (y < n)%nat -> (lfrom (D x y) : Z) <= m.
  Hypothesis Hb : 3 * Z.of_nat n * m <= B.

  Lemma vL_le (a b : Z) : (vL (Nt := Nt) a <= vL (Nt := Nt) b)%Q -> a <= b.
  Proof. intros h. apply Z.leb_le. exact (proj2 (lleb_spec a b) h). Qed.

  Lemma from_nonneg x : okN x -> (0 <= vN x)%Q -> 0 <= lfrom x.
  Proof.
    intros h1 h2. pose proof (vL_from (Nt := Nt) (Lt := Z) _ h1) as h.
    pose proof (vL_zero (Nt := Nt) (Lt := Z)) as h0. apply vL_le. cbn [lzero NumL_Z] in h0. lra.
  Qed.

  Lemma okd_entry x y : (x < n)%nat -> (y < n)%nat -> okd m rep (D x y).
  Proof.
    intros hx hy. destruct HD as (_ & _ & h). destruct (h x y hx hy) as [h1 h2].
    pose proof (from_nonneg _ h1 h2) as h3. pose proof (Hm hx hy) as h4. cbn beta in *.
    split; [split; assumption|]. apply (bl_from HB); auto. nia.
  Qed.

  Lemma okd_zero : okd m rep nzero.
  Proof.
    assert (h0 : (0 < n)%nat) by lia.
    destruct HD as (_ & h & _). rewrite <- (h 0%nat h0). apply okd_entry; auto.
  Qed.

  Lemma okd_get x y d : mget (restrict n D) x y = Ok d -> okd m rep d.
  Proof.
    cbn [restrict mget]. destruct ((x <? n)%nat && (y <? n)%nat) eqn:e; [|discriminate]. intros [= <-].
    apply andb_true_iff in e as [e1 e2]. apply Nat.ltb_lt in e1, e2. apply okd_entry; auto.
  Qed.

  Lemma restrict_bound : 3 * Z.of_nat (mlen (restrict n D)) * m <= B.
  Proof. exact Hb. Qed.

  Lemma rep_lt0 : lltb (lzero : Lt) lzero = false.
  Proof. exact (rp_lt (bl_repr HB) _ _ 0 0 (rp_zero (bl_repr HB)) (rp_zero (bl_repr HB))). Qed.
  Lemma rep_le0 : lleb (lzero : Lt) lzero = true.
  Proof. exact (rp_le (bl_repr HB) _ _ 0 0 (rp_zero (bl_repr HB)) (rp_zero (bl_repr HB))). Qed.
End Main.
