(** Greedy.v -- how good medoids are which were chosen greedily.  The total deviation is a supermodular function of the
    set of medoids, whatever the dissimilarities; the argument is that of Nemhauser, Wolsey and Fisher (1978). *)
From Coq Require Import List Arith ZArith QArith Lqa Lia.
From Verif Require Import Spec SpecFacts.
Import ListNotations.
Set Implicit Arguments.
Open Scope Q_scope.

Local Notation Qn x := (inject_Z (Z.of_nat x)).

Lemma Qn_nonneg x : 0 <= Qn x.
Proof. change 0 with (inject_Z 0). rewrite <- Zle_Qle. lia. Qed.
Lemma Qn_mult x y : Qn (x * y) == Qn x * Qn y.
Proof. rewrite Nat2Z.inj_mul, inject_Z_mult. reflexivity. Qed.
Lemma Qn_S x : Qn (S x) == Qn x + 1.
Proof. rewrite Nat2Z.inj_succ. unfold Z.succ. rewrite inject_Z_plus. reflexivity. Qed.
Lemma Qn_le x y : (x <= y)%nat -> Qn x <= Qn y.
Proof. intros h. rewrite <- Zle_Qle. lia. Qed.
Lemma Qn_pos x : (0 < x)%nat -> 0 < Qn x.
Proof. intros h. change 0 with (inject_Z 0). rewrite <- Zlt_Qlt. lia. Qed.

Lemma sumQ_exchange A B (f : A -> B -> Q) l1 l2 :
  sumQ (fun x => sumQ (f x) l2) l1 == sumQ (fun y => sumQ (fun x => f x y) l1) l2.
Proof.
  induction l1 as [|x l1 IH]; cbn [sumQ fold_right].
  - symmetry. apply sumQ_zero.
  - fold (sumQ (fun x => sumQ (f x) l2) l1). rewrite IH. rewrite <- sumQ_plus. apply sumQ_ext. intros y _. reflexivity.
Qed.
Lemma sumQ_ge_one A (f : A -> Q) l x : In x l -> (forall y, In y l -> 0 <= f y) -> f x <= sumQ f l.
Proof.
  intros hx h. induction l as [|z l IH]; [destruct hx|]. cbn [sumQ fold_right]. fold (sumQ f l).
  destruct hx as [->|hx].
  - assert (0 <= sumQ f l) by (apply sumQ_nonneg; intros; apply h; right; auto). lra.
  - assert (0 <= f z) by (apply h; left; auto). assert (f x <= sumQ f l) by (apply IH; auto; intros; apply h; right; auto). lra.
Qed.
Lemma sumQ_upper A (f : A -> Q) l c : (forall y, In y l -> f y <= c) -> sumQ f l <= Qn (length l) * c.
Proof.
  intros h. induction l as [|z l IH]; cbn [sumQ fold_right length]; [change (Qn 0) with 0; lra|]. fold (sumQ f l).
  rewrite Qn_S. assert (f z <= c) by (apply h; left; auto). assert (sumQ f l <= Qn (length l) * c) by (apply IH; intros; apply h; right; auto).
  lra.
Qed.
Lemma sumQ_const A (f : A -> Q) l c : (forall y, In y l -> f y == c) -> sumQ f l == Qn (length l) * c.
Proof.
  intros h. induction l as [|z l IH]; cbn [sumQ fold_right length]; [change (Qn 0) with 0; lra|]. fold (sumQ f l).
  rewrite Qn_S. rewrite IH by (intros; apply h; right; auto). rewrite (h z) by (left; auto). lra.
Qed.

Section Greedy.
  Variable v : diss.
  Variable n : nat.

  (** what single medoids save together is at least what all of them save *)
  Lemma savings med opt : med <> [] -> opt <> [] ->
    tdev v n med - tdev v n opt <= sumQ (fun y => tdev v n med - tdev v n (med ++ [y])) opt.
  Proof.
    intros hm ho. unfold tdev. rewrite <- sumQ_minus.
    rewrite (sumQ_ext (fun y => sumQ (fun o => mindist v o med) (seq 0 n) - sumQ (fun o => mindist v o (med ++ [y])) (seq 0 n))
      (fun y => sumQ (fun o => mindist v o med - mindist v o (med ++ [y])) (seq 0 n))).
    2:{ intros y _. rewrite sumQ_minus. reflexivity. }
    rewrite (sumQ_exchange (fun y o => mindist v o med - mindist v o (med ++ [y]))).
    apply sumQ_le. intros o _.
    destruct (mindist_in v o ho) as (m & hin & e).
    assert (h := sumQ_ge_one (fun y => mindist v o med - mindist v o (med ++ [y])) opt m hin).
    cbv beta in h. assert (hle : mindist v o (med ++ [m]) <= v o m) by (apply mindist_le, in_or_app; right; left; reflexivity).
    rewrite e. eapply Qle_trans; [|apply h]; [lra|].
    intros y _. assert (mindist v o (med ++ [y]) <= mindist v o med); [|lra].
    apply mindist_incl; auto. intros z hz. apply in_or_app. auto.
  Qed.

  Variable opt : list nat.
  Let q := length opt.
  Hypothesis hopt : opt <> [].
  Variable e : Q.
  Hypothesis he : 0 <= e.

  Lemma greedy_one med t : med <> [] -> (forall y, In y opt -> t <= tdev v n (med ++ [y]) + e) ->
    Qn q * (t - tdev v n opt) <= Qn (q - 1) * (tdev v n med - tdev v n opt) + Qn q * e.
  Proof.
    intros hm ht. pose proof (savings hm hopt) as h.
    assert (h2 := @sumQ_upper _ (fun y => tdev v n med - tdev v n (med ++ [y])) opt (tdev v n med - t + e)).
    cbv beta in h2. assert (h3 : forall y, In y opt -> tdev v n med - tdev v n (med ++ [y]) <= tdev v n med - t + e).
    { intros y hy. specialize (ht y hy). lra. }
    specialize (h2 h3). fold q in h2.
    assert (hq : Qn q == Qn (q - 1) + 1).
    { rewrite <- Qn_S. replace (S (q - 1)) with q; [reflexivity|]. unfold q. destruct opt; [congruence|]. simpl. lia. }
    rewrite hq in *. lra.
  Qed.

  Lemma greedy_power meds : 
    (forall i y, (1 <= i)%nat -> (i < length meds)%nat -> In y opt -> tdev v n (firstn (S i) meds) <= tdev v n (firstn i meds ++ [y]) + e) ->
    forall i, (i < length meds)%nat ->
      Qn (q ^ i) * (tdev v n (firstn (S i) meds) - tdev v n opt) <=
      Qn ((q - 1) ^ i) * (tdev v n (firstn 1 meds) - tdev v n opt) + Qn (i * q ^ i) * e.
  Proof.
    intros hg. induction i as [|i IH]; intros hi.
    - cbn [Nat.pow Nat.mul]. change (Qn 1) with 1. change (Qn 0) with 0. lra.
    - specialize (IH ltac:(lia)).
      assert (hne : firstn (S i) meds <> []) by (destruct meds; simpl in *; [lia|congruence]).
      pose proof (@greedy_one (firstn (S i) meds) (tdev v n (firstn (S (S i)) meds)) hne (fun y hy => hg (S i) y ltac:(lia) hi hy)) as h.
      set (t := tdev v n opt) in *. set (a := tdev v n (firstn (S (S i)) meds)) in *. set (b := tdev v n (firstn (S i) meds)) in *.
      set (f := tdev v n (firstn 1 meds)) in *.
      cbn [Nat.pow Nat.mul]. rewrite !Qn_mult in *. rewrite Nat2Z.inj_add, inject_Z_plus, !Qn_mult.
      pose proof (Qn_nonneg q) as p1. pose proof (Qn_nonneg (q - 1)) as p2. pose proof (Qn_nonneg (q ^ i)) as p3.
      pose proof (Qn_nonneg i) as p4. assert (p5 : Qn (q - 1) <= Qn q) by (apply Qn_le; lia).
      set (A := Qn q) in *. set (B := Qn (q - 1)) in *. set (C := Qn (q ^ i)) in *. set (G := Qn ((q - 1) ^ i)) in *. set (I := Qn i) in *.
      assert (h1 : C * (A * (a - t)) <= C * (B * (b - t) + A * e)).
      { rewrite !(Qmult_comm C). apply Qmult_le_compat_r; auto. }
      assert (h2 : B * (C * (b - t)) <= B * (G * (f - t) + I * C * e)).
      { rewrite !(Qmult_comm B). apply Qmult_le_compat_r; auto. }
      assert (h3 : B * (I * C * e) <= A * (I * C * e)).
      { apply Qmult_le_compat_r; auto. apply Qmult_le_0_compat; auto. apply Qmult_le_0_compat; auto. }
      assert (e1 : C * (A * (a - t)) == A * C * (a - t)) by ring.
      assert (e2 : C * (B * (b - t) + A * e) == B * (C * (b - t)) + A * C * e) by ring.
      assert (e3 : B * (G * (f - t) + I * C * e) == B * G * (f - t) + B * (I * C * e)) by ring.
      assert (e4 : A * (I * C * e) == I * (A * C) * e) by ring.
      assert (e5 : (A * C + I * (A * C)) * e == A * C * e + I * (A * C) * e) by ring.
      lra.
  Qed.
End Greedy.

(** (1 - 1/q)^i is at most 1/2 from i = q - 1 on *)
Lemma bernoulli m j : (m ^ S j + S j * m ^ j <= S m ^ S j)%nat.
Proof.
  induction j as [|j IH]; [simpl; lia|].
  change (S m ^ S (S j))%nat with (S m * S m ^ S j)%nat. change (m ^ S (S j))%nat with (m * m ^ S j)%nat.
  change (m ^ S j)%nat with (m * m ^ j)%nat in *. nia.
Qed.
Lemma half_power q i : (2 <= q)%nat -> (q - 1 <= i)%nat -> (2 * (q - 1) ^ i <= q ^ i)%nat.
Proof.
  intros hq hi. replace i with ((q - 1) + (i - (q - 1)))%nat by lia. generalize (i - (q - 1))%nat as r. intros r. rewrite !Nat.pow_add_r.
  assert (h : (2 * (q - 1) ^ (q - 1) <= q ^ (q - 1))%nat).
  { destruct q as [|[|m]]; try lia. replace (S (S m) - 1)%nat with (S m) by lia.
    pose proof (bernoulli (S m) m) as h. change (S m ^ S m)%nat with (S m * S m ^ m)%nat in *. lia. }
  assert (h2 : ((q - 1) ^ r <= q ^ r)%nat) by (apply Nat.pow_le_mono_l; lia). nia.
Qed.

(** greedily chosen medoids save at least half of what any as many medoids save *)
Lemma greedy_half v n meds opt e : 0 <= e -> dissimilarity n v -> meds <> [] -> opt <> [] -> (length opt <= length meds)%nat ->
  (forall m, In m opt -> (m < n)%nat) -> (forall i y, (i < length meds)%nat -> (y < n)%nat -> i = 0%nat \/ In y opt ->
     tdev v n (firstn (S i) meds) <= tdev v n (firstn i meds ++ [y]) + e) ->
  forall y, (y < n)%nat ->
    2 * tdev v n meds <= tdev v n [y] + tdev v n opt + Qn (2 * length meds) * e.
Proof.
  intros he hd hne ho hl hin hg y hy.
  set (k := length meds) in *. assert (hk : (1 <= k)%nat) by (unfold k; destruct meds; [congruence|simpl; lia]).
  assert (hf : tdev v n (firstn 1 meds) <= tdev v n [y] + e) by (apply (hg 0%nat y); auto).
  assert (hmono : tdev v n meds <= tdev v n (firstn 1 meds)).
  { apply tdev_incl; [destruct meds; [congruence|discriminate]|]. intros z hz. destruct meds; [destruct hz|]. destruct hz as [->|[]]. left. reflexivity. }
  assert (hall : firstn (S (k - 1)) meds = meds) by (apply firstn_all2; lia).
  assert (h2 : Qn (2 * k) * e == 2 * (Qn k * e)) by (rewrite Qn_mult; change (Qn 2) with 2; ring).
  assert (hke : 1 * e <= Qn k * e) by (apply Qmult_le_compat_r; auto; change 1 with (Qn 1); apply Qn_le; lia).
  destruct (Qlt_le_dec (tdev v n opt) (tdev v n (firstn 1 meds))) as [hlt|hle]; [|lra].
  assert (hq : length opt = 1%nat \/ (2 <= length opt)%nat) by (destruct opt as [|? [|]]; simpl in *; [congruence|auto|lia]).
  destruct hq as [hq|hq].
  - destruct opt as [|o [|]]; try discriminate hq. assert (tdev v n (firstn 1 meds) <= tdev v n [o] + e); [|lra].
    apply (hg 0%nat o); auto. apply hin. left. reflexivity.
  - pose proof (@greedy_power v n opt ho e he meds) as h. specialize (h (fun i z h1 h2' h3 => hg i z h2' (hin z h3) (or_intror h3)) (k - 1)%nat ltac:(lia)).
    rewrite hall in h. set (T := tdev v n meds) in *. set (t := tdev v n opt) in *. set (f := tdev v n (firstn 1 meds)) in *.
    set (A := (length opt ^ (k - 1))%nat) in *. set (B := ((length opt - 1) ^ (k - 1))%nat) in *.
    assert (hAB : (2 * B <= A)%nat) by (apply half_power; lia).
    assert (hA : 0 < Qn A) by (apply Qn_pos; unfold A; pose proof (Nat.pow_nonzero (length opt) (k - 1)); lia).
    rewrite Qn_mult in h.
    assert (g1 : (2 * Qn B) * (f - t) <= Qn A * (f - t)).
    { apply Qmult_le_compat_r; [|lra]. change 2 with (Qn 2). rewrite <- Qn_mult. apply Qn_le. exact hAB. }
    assert (g2 : Qn (k - 1) * Qn A * e == Qn A * (Qn (k - 1) * e)) by ring.
    assert (g3 : Qn A * (2 * (T - t)) <= Qn A * ((f - t) + 2 * (Qn (k - 1) * e))) by lra.
    apply Qmult_le_l in g3; [|exact hA].
    assert (ke : Qn k * e == Qn (k - 1) * e + e) by (rewrite <- (Nat.sub_add 1 k hk) at 1; rewrite Nat.add_1_r, Qn_S; ring).
    lra.
Qed.
