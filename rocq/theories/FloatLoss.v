(** FloatLoss.v -- binary64 sums of dissimilarities: no overflow, and the error *)
From Coq Require Import ZArith QArith Qpower Lqa Lia.
From Coq.Floats Require Import SpecFloat.
From Verif Require Import Base Num M_Mat M_Util Inst Hoare Spec SpecFacts Laws FloatFacts FloatExact FloatRound FloatMain FloatSil.
Set Implicit Arguments.
Open Scope Q_scope.

(** a sum of nonnegative numbers: the relative error is at most (number of terms - 1) / 2^52 *)
Lemma bracketed_sum (l : list f64) s : bracketed l s -> fits53 (length l) ->
  (forall x, In x l -> within 0 (2 ^ big_g) x) ->
  (1 <= length l)%nat /\ within 0 (cnt (length l) * 2 ^ big_g) s /\ 
  close ((cnt (length l) - 1) * 2 ^ (-52) * sumQ f64_val l) (sumQ f64_val l) s.
Proof.
  set (u := 2 ^ (-52)). assert (hu : 0 < u) by reflexivity.
  assert (hS : forall l, (forall x, In x l -> within 0 (2 ^ big_g) x) -> 0 <= sumQ f64_val l).
  { intros l0 h. apply sumQ_nonneg. intros x hx. apply h. exact hx. }
  induction 1 as [x|l1 l2 a b h1 IH1 h2 IH2]; intros hf hin.
  - cbn [length]. change (cnt 1) with 1. cbn [sumQ fold_right]. specialize (hin x (or_introl eq_refl)).
    split; [lia|]. split; [eapply within_ext; [| |exact hin]; [reflexivity|ring]|]. unfold close. split; ring_simplify; lra.
  - rewrite app_length in *.
    destruct IH1 as (n1 & w1 & c1); [unfold fits53 in *; lia|intros x hx; apply hin, in_or_app; auto|].
    destruct IH2 as (n2 & w2 & c2); [unfold fits53 in *; lia|intros x hx; apply hin, in_or_app; auto|].
    split; [lia|].
    assert (S1 : 0 <= sumQ f64_val l1) by (apply hS; intros x hx; apply hin, in_or_app; auto).
    assert (S2 : 0 <= sumQ f64_val l2) by (apply hS; intros x hx; apply hin, in_or_app; auto).
    assert (hsum : sumQ f64_val l1 + sumQ f64_val l2 == sumQ f64_val (l1 ++ l2)) by (symmetry; apply sumQ_app).
    set (s1 := sumQ f64_val l1) in *. set (s2 := sumQ f64_val l2) in *.
    assert (hc : cnt (length l1 + length l2) == cnt (length l1) + cnt (length l2)).
    { unfold cnt. rewrite Nat2Z.inj_add, inject_Z_plus. reflexivity. }
    pose proof (@cnt_big (length l1 + length l2) big_g hf ltac:(unfold big_g; lia)) as hb. rewrite hc in hb.
    destruct w1 as (f1 & g1 & u1). destruct w2 as (f2 & g2 & u2).
    assert (hp : 0 < 2 ^ 1022) by reflexivity. pose proof big2 as hB.
    assert (hle : f64_val a + f64_val b <= cnt (length l1 + length l2) * 2 ^ big_g) by (rewrite hc; lra).
    assert (hr : rounds (f64_val a + f64_val b) (SFadd fprec femax a b)).
    { apply add_rounds; auto; [lra|]. lra. }
    cbn [ladd NumL_f64]. split.
    { apply rounds_within with (f64_val a + f64_val b); [apply repr_0|apply repr_cnt; auto; unfold big_g; lia|lra|exact hle|exact hr]. }
    pose proof (rounds_error hr (min_grid_add (finite_min_grid a f1) (finite_min_grid b f2))) as he.
    set (x := f64_val a + f64_val b) in *. assert (hx0 : 0 <= x) by (unfold x; lra).
    assert (e1 : - (2 ^ (-53) * x) <= f64_val (SFadd fprec femax a b) - x <= 2 ^ (-53) * x).
    { assert (0 < 2 ^ (-53)) by reflexivity. assert (0 <= 2 ^ (-53) * x) by (apply Qmult_le_0_compat; lra). lra. }
    set (y := f64_val (SFadd fprec femax a b)) in *.
    assert (hn : cnt (length l1) + cnt (length l2) <= 2 ^ 52).
    { rewrite <- hc. unfold cnt. change (2 ^ 52) with (inject_Z (2 ^ 52)). rewrite <- Zle_Qle. exact hf. }
    assert (m1 : 1 <= cnt (length l1)) by (change 1 with (cnt 1); apply cnt_le; lia).
    assert (m2 : 1 <= cnt (length l2)) by (change 1 with (cnt 1); apply cnt_le; lia).
    set (p := cnt (length l1)) in *. set (q := cnt (length l2)) in *.
    apply close_ext with ((p + q - 1) * u * (s1 + s2)) (s1 + s2); [rewrite hc, hsum; reflexivity|exact hsum|].
    destruct c1 as [c1 c1']. destruct c2 as [c2 c2']. unfold close. fold y.
    assert (hu2 : 2 ^ (-53) == (1 # 2) * u) by reflexivity. rewrite hu2 in e1.
    assert (hu3 : u * 2 ^ 52 == 1) by reflexivity.
    set (S := s1 + s2) in *. assert (hS0 : 0 <= S) by (unfold S; lra).
    (* both errors together *)
    assert (E1 : (p - 1) * u * s1 <= (p - 1) * u * s1 + (q - 1) * u * s1).
    { assert (0 <= (q - 1) * u * s1) by (apply Qmult_le_0_compat; [apply Qmult_le_0_compat|]; lra). lra. }
    assert (E2 : (q - 1) * u * s2 <= (q - 1) * u * s2 + (p - 1) * u * s2).
    { assert (0 <= (p - 1) * u * s2) by (apply Qmult_le_0_compat; [apply Qmult_le_0_compat|]; lra). lra. }
    set (T := (p + q - 2) * u * S).
    assert (ET : (p - 1) * u * s1 + (q - 1) * u * s2 <= T).
    { assert (e : T == (p - 1) * u * s1 + (q - 1) * u * s1 + ((q - 1) * u * s2 + (p - 1) * u * s2)) by (unfold T, S; ring). lra. }
    assert (X1 : - T <= x - S) by (unfold x, S; lra). assert (X2 : x - S <= T) by (unfold x, S; lra).
    assert (T1 : T <= S).
    { assert (e : T == ((p + q - 2) * u) * S) by (unfold T; ring). rewrite e.
      assert (hh : (p + q - 2) * u <= 1).
      { rewrite <- hu3, (Qmult_comm u). apply Qmult_le_compat_r; lra. }
      assert (((p + q - 2) * u) * S <= 1 * S) by (apply Qmult_le_compat_r; assumption). lra. }
    assert (X3 : (1 # 2) * u * x <= u * S).
    { assert (x <= 2 * S) by lra. assert ((1 # 2) * u * x <= (1 # 2) * u * (2 * S)).
      { rewrite !(Qmult_comm ((1 # 2) * u)). apply Qmult_le_compat_r; lra. } lra. }
    assert (e : (p + q - 1) * u * S == T + u * S) by (unfold T; ring). lra.
Qed.
