(** FloatFmt.v -- what the error analysis of the PAM family needs of the type of the losses: a number
    format with correctly rounded addition and subtraction.  Instance here: [f64]; Float32.v: [f32]. *)
From Coq Require Import ZArith QArith Qpower Lqa Lia.
From Coq.Floats Require Import SpecFloat.
From Verif Require Import Base Num M_Mat M_Util M_Fasterpam Inst Hoare Spec SpecFacts Laws FloatFacts FloatExact
  FloatRound PamShape FloatSil FloatMain.
Set Implicit Arguments.
Open Scope Q_scope.

(** ** one operation *)
Lemma rounds_near x y B : rounds x y -> on_min_grid x -> - B <= x -> x <= B -> close (2 ^ (-53) * B) x y.
Proof.
  intros h hg h1 h2. pose proof (rounds_error h hg) as he. unfold close.
  assert (pp : 0 < 2 ^ (-53)) by reflexivity. set (u := 2 ^ (-53)) in *.
  assert (u1 : u * x <= u * B) by (rewrite !(Qmult_comm u); apply Qmult_le_compat_r; lra).
  assert (u2 : - (u * B) <= u * x).
  { assert (u * (- B) <= u * x) by (rewrite !(Qmult_comm u); apply Qmult_le_compat_r; lra). lra. }
  lra.
Qed.

Lemma add_near a b B : f64_finite a -> f64_finite b -> - B <= f64_val a + f64_val b -> f64_val a + f64_val b <= B ->
  B <= 2 ^ 1023 ->
  f64_finite (SFadd fprec femax a b) /\ close (2 ^ (-53) * B) (f64_val a + f64_val b) (SFadd fprec femax a b).
Proof.
  intros ha hb h1 h2 hB.
  assert (hr : rounds (f64_val a + f64_val b) (SFadd fprec femax a b)) by (apply add_rounds; auto; lra).
  split; [apply hr|]. apply rounds_near; auto. apply min_grid_add; apply finite_min_grid; auto.
Qed.

Lemma sub_near a b B : f64_finite a -> f64_finite b -> - B <= f64_val a - f64_val b -> f64_val a - f64_val b <= B ->
  B <= 2 ^ 1023 ->
  f64_finite (SFsub fprec femax a b) /\ close (2 ^ (-53) * B) (f64_val a - f64_val b) (SFsub fprec femax a b).
Proof.
  intros ha hb h1 h2 hB. rewrite sub_add by auto.
  pose proof (finite_opp _ hb) as hb'. pose proof (val_opp b) as ho.
  destruct (@add_near a (SFopp b) B ha hb') as [g1 g2]; [lra|lra|auto|].
  split; [auto|]. eapply close_ext; [reflexivity| |exact g2]. lra.
Qed.

Lemma cnt_add a b : cnt (a + b) == cnt a + cnt b.
Proof. unfold cnt. rewrite Nat2Z.inj_add, inject_Z_plus. reflexivity. Qed.
Lemma cnt_mul a b : cnt (a * b) == cnt a * cnt b.
Proof. unfold cnt. rewrite Nat2Z.inj_mul, inject_Z_mult. reflexivity. Qed.

Lemma sumQ_bound A (f : A -> Q) l m : (forall x, In x l -> - m <= f x /\ f x <= m) ->
  - (cnt (length l) * m) <= sumQ f l /\ sumQ f l <= cnt (length l) * m.
Proof.
  induction l as [|x l IH]; intros h.
  - cbn [length sumQ fold_right]. change (cnt 0) with 0. lra.
  - change (sumQ f (x :: l)) with (f x + sumQ f l). cbn [length]. rewrite cnt_S. destruct IH as [h1 h2]; [intros; apply h; simpl; auto|].
    destruct (h x (or_introl eq_refl)) as [h3 h4]. lra.
Qed.

Lemma f64_lltb a b : f64_finite a -> f64_finite b -> (lltb a b = true <-> f64_val a < f64_val b).
Proof. apply SFltb_val. Qed.
Lemma f64_lltb_false a b : f64_finite a -> f64_finite b -> lltb a b = false -> f64_val b <= f64_val a.
Proof. intros h1 h2 h. apply Qnot_lt_le. intros hl. apply (f64_lltb _ _ h1 h2) in hl. congruence. Qed.
Lemma f64_lleb a b : f64_finite a -> f64_finite b -> (lleb a b = true <-> f64_val a <= f64_val b).
Proof.
  intros h1 h2. cbn [lleb NumL_f64]. unfold SFleb. rewrite SFcompare_val by auto.
  destruct (Qcompare_spec (f64_val a) (f64_val b)) as [h|h|h]; split; intros h'; try reflexivity; try lra; discriminate.
Qed.
Lemma f64_lleb_false a b : f64_finite a -> f64_finite b -> lleb a b = false -> f64_val b < f64_val a.
Proof. intros h1 h2 h. apply Qnot_le_lt. intros hl. apply (f64_lleb _ _ h1 h2) in hl. congruence. Qed.

Lemma zero_finite : f64_finite (lzero : f64).
Proof. exact I. Qed.
Lemma zero_val : f64_val (lzero : f64) = 0.
Proof. reflexivity. Qed.

(** two numbers are at least a relative distance apart *)
Lemma gap a b : f64_finite a -> f64_finite b -> 0 <= f64_val a -> f64_val a < f64_val b ->
  f64_val a * 2 ^ (-53) <= f64_val b - f64_val a.
Proof.
  intros ha hb h0 hlt.
  destruct (rounds_refl a ha) as (_ & A & e & hA & he & va & _ & _ & ca).
  destruct (rounds_refl b hb) as (_ & B & g & hB & hg & vb & _ & _ & _).
  pose proof (pow2_pos e) as pe. pose proof (pow2_pos g) as pg.
  assert (ha53 : f64_val a * 2 ^ (-53) <= 2 ^ e).
  { rewrite va. assert (h : inject_Z A <= 2 ^ 53) by (change (2 ^ 53) with (inject_Z (2 ^ 53)); rewrite <- Zle_Qle; lia).
    assert (h' : inject_Z A * 2 ^ e <= 2 ^ 53 * 2 ^ e) by (apply Qmult_le_compat_r; lra).
    assert (h'' : inject_Z A * 2 ^ e * 2 ^ (-53) <= 2 ^ 53 * 2 ^ e * 2 ^ (-53)) by (apply Qmult_le_compat_r; [auto|discriminate]).
    assert (e1 : 2 ^ 53 * 2 ^ e * 2 ^ (-53) == 2 ^ e) by (change (2 ^ (-53)) with (/ (2 ^ 53)); field; discriminate). lra. }
  destruct (Z_le_gt_dec e g) as [hc|hc].
  - assert (vb' : f64_val b == inject_Z (B * 2 ^ (g - e)) * 2 ^ e).
    { rewrite vb. apply (@scaled_eq _ g _ e e); try lia. rewrite Z.sub_diag, Z.pow_0_r. lia. }
    rewrite va, vb' in hlt. apply Qmult_lt_r in hlt; [|exact pe]. rewrite <- Zlt_Qlt in hlt.
    assert (hle : (A + 1 <= B * 2 ^ (g - e))%Z) by lia. rewrite Zle_Qle, inject_Z_plus in hle. change (inject_Z 1) with 1%Q in hle.
    assert ((inject_Z A + 1) * 2 ^ e <= inject_Z (B * 2 ^ (g - e)) * 2 ^ e) by (apply Qmult_le_compat_r; lra).
    rewrite vb'. lra.
  - exfalso. assert (h52 : 2 ^ (e + 52) <= f64_val a).
    { destruct ca as [->|[h|h]]; [lia|auto|]. pose proof (pow2_pos (e + 52)). lra. }
    assert (hb' : f64_val b <= 2 ^ (e + 52)).
    { rewrite vb. assert (h : inject_Z B <= 2 ^ 53) by (change (2 ^ 53) with (inject_Z (2 ^ 53)); rewrite <- Zle_Qle; lia).
      assert (h' : inject_Z B * 2 ^ g <= 2 ^ 53 * 2 ^ g) by (apply Qmult_le_compat_r; lra).
      rewrite <- Qpower_plus in h' by discriminate. assert (2 ^ (53 + g) <= 2 ^ (e + 52)) by (apply pow2_le; lia). lra. }
    lra.
Qed.

(** ** the class *)
Unset Implicit Arguments.
Class LossFmt (Lt : Type) `{HL : NumL Lt} := {
  lfin : Lt -> Prop;      (* neither NaN nor infinite *)
  lval : Lt -> Q;         (* the number represented *)
  lunit : Q;              (* relative error of one operation *)
  lbig : Q;               (* results up to here do not overflow *)
  lunit_pos : 0 < lunit;
  lunit_small : lunit <= 2 ^ (-24);
  lbig_pos : 0 < lbig;
  fmt_zero : lfin lzero;
  fmt_zero_val : lval lzero = 0;
  fmt_lltb : forall a b, lfin a -> lfin b -> (lltb a b = true <-> lval a < lval b);
  fmt_lleb : forall a b, lfin a -> lfin b -> (lleb a b = true <-> lval a <= lval b);
  fmt_neg : forall a, lfin a -> lfin (lneg a) /\ lval (lneg a) == - lval a;
  fmt_add : forall a b B, lfin a -> lfin b -> - B <= lval a + lval b -> lval a + lval b <= B -> B <= lbig ->
    lfin (ladd a b) /\ - (lunit * B) <= lval (ladd a b) - (lval a + lval b) /\ lval (ladd a b) - (lval a + lval b) <= lunit * B;
  fmt_sub : forall a b B, lfin a -> lfin b -> - B <= lval a - lval b -> lval a - lval b <= B -> B <= lbig ->
    lfin (lsub a b) /\ - (lunit * B) <= lval (lsub a b) - (lval a - lval b) /\ lval (lsub a b) - (lval a - lval b) <= lunit * B;
  fmt_add_le : forall a b c, lfin a -> lfin b -> lfin c -> - lbig <= lval a + lval b -> lval a + lval b <= lbig ->
    lval a + lval b <= lval c -> lval (ladd a b) <= lval c;
  fmt_add_ge : forall a b c, lfin a -> lfin b -> lfin c -> - lbig <= lval a + lval b -> lval a + lval b <= lbig ->
    lval c <= lval a + lval b -> lval c <= lval (ladd a b);
  fmt_sub_le : forall a b, lfin a -> lfin b -> - lbig <= lval a - lval b -> lval a <= lval b -> lval (lsub a b) <= 0;
  fmt_gap : forall a b, lfin a -> lfin b -> 0 <= lval a -> lval a < lval b -> lval a * lunit <= lval b - lval a
}.
Set Implicit Arguments.

Global Instance Fmt_f64 : LossFmt f64.
Proof.
  refine (@Build_LossFmt f64 NumL_f64 f64_finite f64_val (2 ^ (-53)) (2 ^ 1023) eq_refl _ eq_refl I eq_refl
    f64_lltb f64_lleb _ _ _ _ _ _ gap).
  - vm_compute. discriminate.
  - intros a h. split; [apply finite_opp; exact h|apply val_opp].
  - intros a b B ha hb h1 h2 h3. destruct (@add_near a b B ha hb h1 h2 h3) as [g1 g2]. split; [exact g1|exact g2].
  - intros a b B ha hb h1 h2 h3. destruct (@sub_near a b B ha hb h1 h2 h3) as [g1 g2]. split; [exact g1|exact g2].
  - intros a b c ha hb hc h1 h2 h. apply (@rounds_le _ _ c (add_rounds _ _ ha hb h1 h2) hc h).
  - intros a b c ha hb hc h1 h2 h. apply (@rounds_ge _ _ c (add_rounds _ _ ha hb h1 h2) hc h).
  - intros a b ha hb h1 h. assert (h2 : f64_val a - f64_val b <= 2 ^ 1023).
    { assert (0 < 2 ^ 1023) by reflexivity. lra. }
    pose proof (@rounds_le _ _ (lzero : f64) (sub_rounds _ _ ha hb h1 h2) I) as g. rewrite zero_val in g. apply g. lra.
Defined.

Section Fmt.
  Context {Lt : Type} `{LF : LossFmt Lt}.

  (** [y] is [x] up to [e] *)
  Definition lclose (e x : Q) (y : Lt) : Prop := - e <= lval y - x /\ lval y - x <= e.
  Lemma lclose_ext e e' x x' y : e == e' -> x == x' -> lclose e x y -> lclose e' x' y.
  Proof. intros h1 h2 [h3 h4]. unfold lclose. lra. Qed.
  Lemma lclose_le e e' x y : e <= e' -> lclose e x y -> lclose e' x y.
  Proof. intros h1 [h3 h4]. unfold lclose. lra. Qed.

  Lemma fmt_lltb_false a b : lfin a -> lfin b -> lltb a b = false -> lval b <= lval a.
  Proof. intros h1 h2 h. apply Qnot_lt_le. intros hl. apply (fmt_lltb _ _ h1 h2) in hl. congruence. Qed.
  Lemma fmt_lleb_false a b : lfin a -> lfin b -> lleb a b = false -> lval b < lval a.
  Proof. intros h1 h2 h. apply Qnot_le_lt. intros hl. apply (fmt_lleb _ _ h1 h2) in hl. congruence. Qed.
  Lemma fmt_zz : lltb (lzero : Lt) lzero = false.
  Proof.
    destruct (lltb lzero lzero) eqn:e; [|reflexivity]. apply (fmt_lltb _ _ fmt_zero fmt_zero) in e. lra.
  Qed.

  (** ** the first minimum of finite numbers *)
  Lemma find_min_fmt (l : list Lt) : l <> [] -> (forall x, In x l -> lfin x) ->
    oks (find_min l) (fun p => (fst p < length l)%nat /\ snd p = nth (fst p) l lzero /\
      (forall c, (c < length l)%nat -> lval (snd p) <= lval (nth c l lzero))).
  Proof.
    destruct l as [|x xs]; [congruence|]. intros _ hf. unfold find_min. cbn [oks].
    pose (Q := fun t (p : nat * Lt) => (fst p < t)%nat /\ snd p = nth (fst p) (x :: xs) lzero /\ lfin (snd p) /\
      (forall c, (c < t)%nat -> lval (snd p) <= lval (nth c (x :: xs) lzero))).
    assert (G : forall ys s best, (1 <= s)%nat ->
      (forall i y, nth_error ys i = Some y -> nth_error (x :: xs) (s + i) = Some y) ->
      Q s best ->
      Q (s + length ys)%nat (fold_left (fun (best : nat * Lt) '(ik, iv) =>
                            if lltb iv (snd best) then (ik, iv) else best)
                         (combine (seq s (length ys)) ys) best)).
    { induction ys as [|y ys IH]; intros s best hs hys hq.
      - simpl. rewrite Nat.add_0_r. auto.
      - cbn [length seq combine fold_left]. rewrite <- Nat.add_succ_comm. apply IH; [lia| |].
        + intros i z hz. specialize (hys (S i) z hz). rewrite <- hys. f_equal. lia.
        + assert (e : nth_error (x :: xs) s = Some y).
          { specialize (hys 0%nat y eq_refl). rewrite Nat.add_0_r in hys. auto. }
          assert (hy : lfin y) by (apply hf; eapply nth_error_In; eauto).
          apply nth_error_nth with (d := lzero) in e.
          destruct hq as (q1 & q2 & q3 & q4).
          destruct (lltb y (snd best)) eqn:el.
          * apply fmt_lltb in el; auto. split; [simpl; lia|]. split; [simpl fst; simpl snd; auto|].
            simpl fst. simpl snd. split; [auto|].
            intros c hc. destruct (Nat.eq_dec c s) as [->|]; [rewrite e; lra|].
            specialize (q4 c). assert (hcs : (c < s)%nat) by lia. specialize (q4 hcs). lra.
          * split; [lia|]. split; [auto|]. split; [auto|].
            intros c hc. destruct (Nat.eq_dec c s) as [->|]; [|apply q4; lia].
            rewrite e. apply fmt_lltb_false; auto. }
    assert (h0 : Q 1%nat (0%nat, x)).
    { split; [simpl; lia|]. split; [auto|]. simpl fst. simpl snd. split; [apply hf; simpl; auto|].
      intros c hc. assert (c = 0%nat) as -> by lia. simpl. lra. }
    pose proof (G xs 1%nat (0%nat, x) (le_n 1) ltac:(auto) h0) as (g1 & g2 & _ & g4). auto.
  Qed.

  Lemma bracketed_cons (l : list Lt) s : bracketed l s -> l <> [].
  Proof. induction 1 as [x|l1 l2 a b h1 IH1 h2 IH2]; [discriminate|]. destruct l1; [congruence|discriminate]. Qed.

  (** ** a sum of nonnegative numbers, added up in any way *)
  Lemma fmt_sum (l : list Lt) s mx : bracketed l s -> 2 * cnt (length l) * lunit <= 1 -> 2 * cnt (length l) * mx <= lbig ->
    (forall x, In x l -> lfin x /\ 0 <= lval x /\ lval x <= mx) ->
    lfin s /\ lclose ((cnt (length l) - 1) * (2 * lunit) * sumQ lval l) (sumQ lval l) s.
  Proof.
    intros hb. enough (H : 2 * cnt (length l) * lunit <= 1 -> 2 * cnt (length l) * mx <= lbig ->
      (forall x, In x l -> lfin x /\ 0 <= lval x /\ lval x <= mx) ->
      lfin s /\ 1 <= cnt (length l) /\ lclose ((cnt (length l) - 1) * (2 * lunit) * sumQ lval l) (sumQ lval l) s) by (intros; destruct H; tauto).
    pose proof lunit_pos as hu. set (u := lunit) in *.
    induction hb as [x|l1 l2 a b h1 IH1 h2 IH2]; intros hn hx hl.
    - cbn [length]. change (cnt 1) with 1. cbn [sumQ fold_right]. destruct (hl x (or_introl eq_refl)) as (f & _). split; [exact f|].
      split; [lra|]. unfold lclose. lra.
    - rewrite app_length in *.
      assert (hc : cnt (length l1 + length l2) == cnt (length l1) + cnt (length l2)).
      { unfold cnt. rewrite Nat2Z.inj_add, inject_Z_plus. reflexivity. }
      pose proof (cnt_pos (length l1)) as p1. pose proof (cnt_pos (length l2)) as p2.
      assert (L1 : forall x, In x l1 -> lfin x /\ 0 <= lval x /\ lval x <= mx) by (intros x h; apply hl, in_or_app; auto).
      assert (L2 : forall x, In x l2 -> lfin x /\ 0 <= lval x /\ lval x <= mx) by (intros x h; apply hl, in_or_app; auto).
      assert (hm : 0 <= mx).
      { pose proof (bracketed_cons h1) as hne. destruct l1 as [|x l1]; [congruence|]. destruct (L1 x (or_introl eq_refl)) as (_ & g1 & g2). lra. }
      rewrite hc in hn, hx. set (p := cnt (length l1)) in *. set (q := cnt (length l2)) in *.
      assert (pu : 0 <= p * u) by (apply Qmult_le_0_compat; lra). assert (qu : 0 <= q * u) by (apply Qmult_le_0_compat; lra).
      assert (pm : 0 <= p * mx) by (apply Qmult_le_0_compat; lra). assert (qm : 0 <= q * mx) by (apply Qmult_le_0_compat; lra).
      destruct IH1 as (f1 & n1 & c1 & c1'); [lra|lra|exact L1|]. destruct IH2 as (f2 & n2 & c2 & c2'); [lra|lra|exact L2|].
      assert (S1 : 0 <= sumQ lval l1) by (apply sumQ_nonneg; intros x h; apply L1; auto).
      assert (S2 : 0 <= sumQ lval l2) by (apply sumQ_nonneg; intros x h; apply L2; auto).
      assert (S1' : sumQ lval l1 <= p * mx).
      { unfold p. apply sumQ_bound. intros x h. destruct (L1 x h) as (_ & g1 & g2). lra. }
      assert (S2' : sumQ lval l2 <= q * mx).
      { unfold q. apply sumQ_bound. intros x h. destruct (L2 x h) as (_ & g1 & g2). lra. }
      assert (hsum : sumQ lval (l1 ++ l2) == sumQ lval l1 + sumQ lval l2) by apply sumQ_app.
      set (s1 := sumQ lval l1) in *. set (s2 := sumQ lval l2) in *.
      set (S := s1 + s2) in *. assert (hS0 : 0 <= S) by (unfold S; lra).
      set (T := (p + q - 2) * (2 * u) * S).
      assert (ET : (p - 1) * (2 * u) * s1 + (q - 1) * (2 * u) * s2 <= T).
      { assert (e : T == (p - 1) * (2 * u) * s1 + (q - 1) * (2 * u) * s2 + ((q - 1) * (2 * u) * s1 + (p - 1) * (2 * u) * s2)) by (unfold T, S; ring).
        assert (0 <= (q - 1) * (2 * u) * s1) by (apply Qmult_le_0_compat; [apply Qmult_le_0_compat|]; lra).
        assert (0 <= (p - 1) * (2 * u) * s2) by (apply Qmult_le_0_compat; [apply Qmult_le_0_compat|]; lra). lra. }
      assert (hT0 : 0 <= T) by (unfold T; apply Qmult_le_0_compat; [apply Qmult_le_0_compat|]; lra).
      assert (T1 : T <= S).
      { assert (e : T == ((p + q - 2) * (2 * u)) * S) by (unfold T; ring). rewrite e.
        assert (hh : (p + q - 2) * (2 * u) <= 1) by lra.
        assert (((p + q - 2) * (2 * u)) * S <= 1 * S) by (apply Qmult_le_compat_r; assumption). lra. }
      assert (X1 : - T <= lval a + lval b - S) by (unfold S; lra). assert (X2 : lval a + lval b - S <= T) by (unfold S; lra).
      destruct (@fmt_add Lt _ _ a b (2 * S) f1 f2) as (g1 & g2 & g3); [lra|lra|unfold S; lra|]. fold u in g2, g3.
      split; [exact g1|]. split; [rewrite hc; lra|].
      apply lclose_ext with ((p + q - 1) * (2 * u) * S) S; [rewrite hsum, hc; reflexivity|symmetry; exact hsum|].
      assert (e : (p + q - 1) * (2 * u) * S == T + u * (2 * S)) by (unfold T; ring).
      unfold lclose. rewrite e. split; lra.
  Qed.
End Fmt.

(** a dissimilarity and its conversion to a loss are the same number *)
Definition exact_in {Nt Lt} `{OrdLaws Nt} `{LossFmt Lt} `{FromN Nt Lt} (n : nat) (D : nat -> nat -> Nt) : Prop :=
  forall x y, (x < n)%nat -> (y < n)%nat -> lfin (lfrom (D x y)) /\ lval (lfrom (D x y)) == vals D x y.
Lemma exact_in_f64 {Nt} `{OrdLaws Nt} `{FromN Nt f64} n (D : nat -> nat -> Nt) : exact_from n D -> exact_in (Lt := f64) n D.
Proof. exact (fun h => h). Qed.

(** for [f64] *)
Lemma find_min_f64 (l : list f64) : l <> [] -> (forall x, In x l -> f64_finite x) ->
  oks (find_min l) (fun p => (fst p < length l)%nat /\ snd p = nth (fst p) l lzero /\
    (forall c, (c < length l)%nat -> f64_val (snd p) <= f64_val (nth c l lzero))).
Proof. exact (@find_min_fmt f64 _ Fmt_f64 l). Qed.

(** the conditions on the number of objects and on the entries, for binary64 *)
Lemma cnt_n32 n : (N.of_nat n <= 4294967295)%N -> cnt n <= 2 ^ 32.
Proof. intros h. unfold cnt. change (2 ^ 32) with (inject_Z (2 ^ 32)). rewrite <- Zle_Qle. lia. Qed.
Lemma f64_few n : (N.of_nat n <= 4294967295)%N -> 64 * cnt n * lunit (Lt := f64) <= 1.
Proof.
  intros h. assert (h' : cnt n <= 4294967296) by (unfold cnt; change 4294967296 with (inject_Z 4294967296); rewrite <- Zle_Qle; lia).
  change (lunit (Lt := f64)) with (2 ^ (-53)). assert (e : 2 ^ (-53) == 1 # 9007199254740992) by reflexivity. rewrite e. lra.
Qed.
Lemma f64_room n mx : (N.of_nat n <= 4294967295)%N -> mx <= 2 ^ 970 -> 4 * cnt n * mx <= lbig (Lt := f64).
Proof.
  intros h hm. assert (h' : cnt n <= 2 ^ 32) by (unfold cnt; change (2 ^ 32) with (inject_Z 4294967296); rewrite <- Zle_Qle; lia).
  change (lbig (Lt := f64)) with (2 ^ 1023). pose proof (cnt_pos n) as h0.
  assert (e : 2 ^ 34 * 2 ^ 970 <= 2 ^ 1023) by (vm_compute; discriminate).
  assert (h1 : cnt n * mx <= cnt n * 2 ^ 970) by (rewrite !(Qmult_comm (cnt n)); apply Qmult_le_compat_r; auto).
  assert (h2 : cnt n * 2 ^ 970 <= 2 ^ 32 * 2 ^ 970) by (apply Qmult_le_compat_r; [auto|vm_compute; discriminate]).
  assert (e2 : 4 * (2 ^ 32 * 2 ^ 970) == 2 ^ 34 * 2 ^ 970) by (vm_compute; reflexivity).
  eapply Qle_trans; [|exact e]. rewrite <- e2. rewrite <- Qmult_assoc. 
  set (A := 2 ^ 32 * 2 ^ 970) in *. set (B := cnt n * 2 ^ 970) in *. clearbody A B. lra.
Qed.

(** back from the format to binary64 *)
Ltac to64 := unfold lclose in *; change (@lval f64 NumL_f64 Fmt_f64) with f64_val in *; change (@lfin f64 NumL_f64 Fmt_f64) with f64_finite in *.
