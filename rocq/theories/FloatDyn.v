(** FloatDyn.v -- dynmsc in binary64 *)
From Coq Require Import ZArith QArith Qpower Lqa Lia Permutation.
From Coq.Floats Require Import SpecFloat.
From Verif Require Import Base Num M_Mat M_Util M_Fasterpam M_Silhouette M_Msc M_Dynmsc Inst Hoare Spec SpecFacts Laws
  FloatFacts FloatExact FloatRound PamShape PamExact PamFacts MscShape MscExact MscFacts MscK2 Term TermMsc SilFacts SortFacts FloatSil FloatLoss FloatMain
  FloatFmt FloatSwap FloatMsc FloatPass FloatMsc2 DynShape DynFacts DynExact TermFloat.
Set Implicit Arguments.
Open Scope Q_scope.

(** ** every float but NaN is ordered *)
Definition not_nan (x : f64) : Prop := x <> S754_nan.
Definition le64 (x y : f64) : Prop := SFltb y x = false.

Lemma ltb_fin_pos m1 e1 m2 e2 : SFltb (S754_finite false m1 e1) (S754_finite false m2 e2) = false <->
  (e2 < e1 \/ (e1 = e2 /\ (m2 <= m1)%positive))%Z.
Proof.
  unfold SFltb. cbn [SFcompare]. change (Pos.compare_cont Eq m1 m2) with (Pos.compare m1 m2).
  destruct (Z.compare_spec e1 e2) as [->|h|h].
  - destruct (Pos.compare_spec m1 m2) as [->|h|h]; split; intros g; auto; try lia; try discriminate; try (destruct g; lia); exfalso; lia.
  - split; [discriminate|lia].
  - split; auto.
Qed.
Lemma ltb_fin_neg m1 e1 m2 e2 : SFltb (S754_finite true m1 e1) (S754_finite true m2 e2) = false <->
  (e1 < e2 \/ (e1 = e2 /\ (m1 <= m2)%positive))%Z.
Proof.
  unfold SFltb. cbn [SFcompare]. change (Pos.compare_cont Eq m1 m2) with (Pos.compare m1 m2).
  destruct (Z.compare_spec e1 e2) as [->|h|h].
  - destruct (Pos.compare_spec m1 m2) as [->|h|h]; cbn [CompOpp]; split; intros g; auto; try lia; try discriminate; exfalso; lia.
  - split; auto.
  - split; [discriminate|lia].
Qed.

Lemma le64_trans x y z : not_nan x -> not_nan y -> not_nan z -> le64 x y -> le64 y z -> le64 x z.
Proof.
  unfold not_nan, le64. intros hx hy hz.
  destruct x as [sx|sx| |sx mx ex]; try congruence; destruct y as [sy|sy| |sy my ey]; try congruence;
    destruct z as [sz|sz| |sz mz ez]; try congruence;
    repeat match goal with s : bool |- _ => destruct s end; try (cbn; congruence);
    rewrite ?ltb_fin_pos, ?ltb_fin_neg; lia.
Qed.

Lemma not_nan_order : ord_ok not_nan le64.
Proof.
  unfold ord_ok. split.
  { intros x hx. unfold le64. destruct x as [s|[|]| |[|] m e]; try reflexivity; [apply ltb_fin_neg|apply ltb_fin_pos]; right; split; auto; lia. }
  split; [exact le64_trans|]. split.
  - intros x y hx hy h. unfold le64. change (SFltb x y = true) in h.
    destruct x as [sx|sx| |sx mx ex]; try contradiction; destruct y as [sy|sy| |sy my ey]; try contradiction;
      repeat match goal with s : bool |- _ => destruct s end; try (cbn in h |- *; congruence).
    + apply ltb_fin_neg. apply Bool.not_false_iff_true in h. rewrite ltb_fin_neg in h. lia.
    + apply ltb_fin_pos. apply Bool.not_false_iff_true in h. rewrite ltb_fin_pos in h. lia.
  - intros x y _ _ h. exact h.
Qed.

Lemma finite_order : ord_ok f64_finite (fun x y => f64_val x <= f64_val y).
Proof.
  assert (T : forall x y, f64_finite x -> f64_finite y -> (lltb x y = true <-> f64_val x < f64_val y)) by exact SFltb_val.
  split; [intros; lra|]. split; [intros; lra|]. split.
  - intros x y h1 h2 h. apply T in h; auto. lra.
  - intros x y h1 h2 h. apply Qnot_lt_le. intros h'. apply T in h'; auto. congruence.
Qed.

(** ** operations which do not give NaN *)
Lemma round_aux_not_nan s m e l : (0 <= m)%Z -> not_nan (binary_round_aux fprec femax s m e l).
Proof.
  intros h. unfold binary_round_aux. pose proof (@shr_fexp_nonneg fprec femax m e l h) as h1.
  destruct (shr_fexp fprec femax m e l) as [m1 e1]. cbn [fst] in h1.
  set (R := round_nearest_even _ _). assert (h2 : (0 <= R)%Z).
  { unfold R, round_nearest_even. destruct (loc_of_shr_record m1) as [|[]]; try lia. destruct (Z.even _); lia. }
  pose proof (@shr_fexp_nonneg fprec femax R e1 loc_Exact h2) as h3.
  destruct (shr_fexp fprec femax R e1 loc_Exact) as [m2 e2]. cbn [fst] in h3.
  unfold not_nan. destruct (shr_m m2); [discriminate| |lia]. destruct (Zle_bool _ _); discriminate.
Qed.

Lemma normalize_not_nan z e s : not_nan (binary_normalize fprec femax z e s).
Proof.
  destruct z; cbn [binary_normalize]; [discriminate| |]; unfold binary_round; destruct (shl_align _ _ _); apply round_aux_not_nan; lia.
Qed.

Lemma div_count_nonneg s m e : f64_nonneg s -> f64_nonneg (SFdiv fprec femax s (S754_finite false m e)).
Proof.
  intros hs. destruct s as [s|s| |s ms es]; try contradiction; cbn [f64_nonneg] in hs; try subst s; [exact I|reflexivity|].
  cbn [SFdiv xorb]. pose proof (@div_core (Zpos ms) es (Zpos m) e ltac:(lia) ltac:(lia)) as hd.
  destruct (SFdiv_core_binary fprec femax (Zpos ms) es (Zpos m) e) as [[q e'] l]. destruct hd as (d1 & _).
  apply round_aux_nonneg. exact d1.
Qed.

Lemma one_minus_not_nan x : f64_nonneg x -> not_nan (SFsub fprec femax (lone : f64) x).
Proof.
  change (lone : f64) with (S754_finite false 4503599627370496 (-52)).
  destruct x as [s|s| |s m e]; try contradiction; intros h; cbn [SFsub]; try discriminate. apply normalize_not_nan.
Qed.

Section Dyn.
  Context {U : SumErr} {Nt : Type} `{HO : OrdLaws Nt} `{HFN : FromN Nt f64}.
  Variable M : Mat Nt.
  Variable n : nat.
  Variable D : nat -> nat -> Nt.
  Hypothesis HD : diss_matrix M n D.
  Hypothesis HE : exact_from n D.
  Hypothesis Hn : (2 <= n)%nat.
  Hypothesis Hn32 : (N.of_nat n <= 4294967295)%N.
  Local Notation v := (vals D).
  Let HM : is_matrix M n D := proj1 HD.
  Let Hemb : Emb n D v := proj1 (emb_vals HD).
  Let Hdg : Dg n D := proj2 (emb_vals HD).
  Let Hzz : nis_zero (nzero : Nt) = true := proj2 (nis_zero_spec nzero okN_zero) vN_zero.
  Let Hn1 : (1 <= n)%nat := Nat.le_trans _ _ _ (le_S _ _ (le_n 1)) Hn.

  (** ** losses are finite, or infinite with the right sign *)
  Lemma ratio_nonneg o x y : (o < n)%nat -> (x < n)%nat -> (y < n)%nat -> f64_nonneg (ratio (D o x) (D o y)).
  Proof.
    intros ho hx hy. unfold ratio. destruct (nis_zero (D o x)) eqn:e1; cbn [orb]; [exact I|].
    destruct (nis_zero (D o y)) eqn:e2; [exact I|].
    pose proof (pos_entry HD ho hx e1) as p1. pose proof (pos_entry HD ho hy e2) as p2.
    destruct (HE ho hx) as [a1 a2]. destruct (HE ho hy) as [b1 b2].
    apply div_nonneg; auto; [rewrite a2|rewrite b2]; auto.
  Qed.

  Lemma sum_nonneg (l : list f64) s : (forall x, In x l -> f64_nonneg x) -> reduce ladd l = Some s -> f64_nonneg s.
  Proof.
    destruct l as [|x l]; [discriminate|]. cbn [reduce]. intros h e. injection e as <-.
    assert (hx : f64_nonneg x) by (apply h; left; auto).
    assert (hl : forall y, In y l -> f64_nonneg y) by (intros; apply h; right; auto). clear h. revert x hx.
    induction l as [|y l IH]; intros x hx; cbn [fold_left]; [auto|].
    apply IH; [intros; apply hl; right; auto|]. apply add_nonneg; auto. apply hl. left; auto.
  Qed.

  Lemma ratio_sum_nonneg X med data (s : f64) : inr n med -> data3_ok n D X med data ->
    MscShape.ratio_sum data = Some s -> f64_nonneg s.
  Proof.
    intros hin [hl hd]. apply sum_nonneg. intros x hx. apply in_map_iff in hx as (r & <- & hr).
    apply In_nth_error in hr as (o & hr). assert (ho : (o < n)%nat) by (rewrite <- hl; apply nth_error_lt with (1 := hr)).
    destruct (hd o r hr) as (a & b & h1 & h2 & _ & [_ h4] & [_ h5] & _).
    unfold rec_ratio. rewrite h4, h5 by auto. apply ratio_nonneg; auto using inr_nth.
  Qed.

  Lemma cnt_2 : 2 <= cnt n.
  Proof. unfold cnt. change 2 with (inject_Z 2). rewrite <- Zle_Qle. lia. Qed.

  Lemma silhouette_not_nan s : f64_nonneg s -> not_nan (to_silhouette M s).
  Proof.
    intros hs. unfold to_silhouette. rewrite (len_n HM), as_u32_small by exact Hn32. cbn [lfrom_u32 ldiv lsub NumL_f64]. rewrite nat_N_Z.
    destruct (@of_nat_val n (fits_u32 _ Hn32)) as [f1 f2]. set (N := f64_of_Z (Z.of_nat n)) in *. clearbody N.
    pose proof cnt_2 as h2. apply one_minus_not_nan.
    destruct N as [sN|sN| |sN mN eN]; try contradiction; [cbn [f64_val] in f2; lra|].
    destruct sN; [|apply div_count_nonneg; exact hs]. exfalso. cbn [f64_val] in f2. rewrite neg_val in f2. pose proof (f64_pos mN eN). lra.
  Qed.

  (** ** the sum of the ratios with two correct cached medoids *)
  Lemma rec2_ratio med o r : inr n med -> (o < n)%nat -> rec2 n D True (length med) med o r ->
    within 0 1 (rec_ratio r) /\ close (2 ^ (-53)) (near_ratio v o med) (rec_ratio r) /\
    forall j, In j med -> v o j == 0 -> f64_val (rec_ratio r) == 0.
  Proof.
    intros hin ho (a & b & h1 & h2 & h3 & [_ h4] & [_ h5] & h6). destruct (h6 I Hdg _ Hemb) as [m1 m2].
    unfold rec_ratio. rewrite h4, h5 by auto.
    assert (ha : (nth a med 0 < n)%nat) by auto using inr_nth. assert (hb : (nth b med 0 < n)%nat) by auto using inr_nth.
    destruct (@ratio_in _ _ _ _ M n D HD HE o (nth a med 0%nat) (nth b med 0%nat) ho ha hb (m1 b h2)) as [q1 q2].
    split; [exact q1|]. split.
    - eapply close_ext; [reflexivity| |exact q2]. symmetry. apply near_ratio_pos; auto.
    - intros j hj hz. apply nth_In_iff in hj as (c & hc & e).
      assert (ez : v o (nth a med 0%nat) == 0).
      { pose proof (vpos HD ho ha) as hp. specialize (m1 c hc). rewrite e in m1. lra. }
      unfold ratio. destruct (nis_zero (D o (nth a med 0%nat))) eqn:en; [cbn [orb]; rewrite zero_val; reflexivity|].
      exfalso. pose proof (pos_entry HD ho ha en). lra.
  Qed.

  Lemma sum2_near med data (s : f64) : inr n med -> (2 <= length med)%nat -> length data = n ->
    (forall o r, nth_error data o = Some r -> rec2 n D True (length med) med o r) ->
    MscShape.ratio_sum data = Some s -> loss_near n D med s /\ f64_val s <= cnt (n - 1).
  Proof.
    intros hin hk hl hd hs. unfold MscShape.ratio_sum in hs.
    set (d0 := mkReco (DP None nzero) (DP None nzero) (DP (Nt := Nt) None nzero)).
    assert (hd' : forall o, (o < n)%nat -> rec2 n D True (length med) med o (nth o data d0)).
    { intros o ho. apply hd. apply nth_error_nth'. lia. }
    assert (em : map (rec_ratio (Lt := f64)) data = map (fun o => rec_ratio (nth o data d0)) (seq 0 n)).
    { rewrite <- hl. rewrite <- (map_map (fun o => nth o data d0)). f_equal. symmetry. apply map_nth_seq. }
    rewrite em in hs. split.
    - destruct (@FloatSil.ratio_sum (fun o => rec_ratio (nth o data d0)) (fun o => near_ratio v o med) n Hn1) as (s' & e & h1 & h2).
      + apply fits_u32. auto.
      + intros o ho. destruct (rec2_ratio hin ho (hd' o ho)) as (q1 & q2 & _). auto.
      + rewrite e in hs. injection hs as <-. split; [exact h1|exact h2].
    - destruct med as [|j med']; [cbn in hk; lia|]. set (med := j :: med') in *.
      assert (hj : In j med) by (left; auto). assert (hjn : (j < n)%nat) by (apply hin; auto).
      eapply Qle_trans.
      + apply (@far_sum _ _ _ _ M n D HD HE Hn1 Hn32 (fun o => rec_ratio (nth o data d0)) s j); [|exact hs].
        intros o ho. destruct (rec2_ratio hin ho (hd' o ho)) as (q1 & _ & q3). split; [auto|]. apply q3. exact hj.
      + unfold cnt. rewrite <- Zle_Qle. pose proof (far_less HD Hn1 Hn32 hjn). lia.
  Qed.

  Lemma rec3_rec2 med o r : rec3 n D True (length med) med o r -> rec2 n D True (length med) med o r.
  Proof. intros (a & b & h1 & h2 & h3 & h4 & h5 & h6 & _). exists a, b. auto 10. Qed.

  Lemma silhouette_pos s : within 0 (cnt n) s -> f64_val s <= cnt (n - 1) ->
    f64_finite (to_silhouette M s) /\ 0 < f64_val (to_silhouette M s).
  Proof.
    intros (w1 & w2 & w3) hlt. unfold to_silhouette. rewrite (len_n HM), as_u32_small by exact Hn32. cbn [lfrom_u32 ldiv NumL_f64]. rewrite nat_N_Z.
    destruct (@of_nat_val n (fits_u32 _ Hn32)) as [f1 f2]. set (N := f64_of_Z (Z.of_nat n)) in *. clearbody N.
    pose proof cnt_2 as h2.
    assert (hc : cnt (n - 1) == cnt n - 1) by (unfold cnt; rewrite Nat2Z.inj_sub by lia; unfold Z.sub; rewrite inject_Z_plus; reflexivity).
    assert (hB : 1 <= 2 ^ 1023) by (apply Qlt_le_weak; reflexivity).
    (* 1 - 2^-32 *)
    set (u := S754_finite false 9007199252643840 (-53) : f64).
    assert (u1 : f64_finite u) by reflexivity. assert (u2 : f64_val u == 1 - 2 ^ (-32)) by reflexivity.
    assert (hn' : cnt n <= 2 ^ 32).
    { change (2 ^ 32) with (inject_Z (2 ^ 32)). unfold cnt. rewrite <- Zle_Qle. change (2 ^ 32)%Z with (Z.of_N 4294967296). lia. }
    assert (hq : 0 <= f64_val s / f64_val N /\ f64_val s / f64_val N <= 1 - 2 ^ (-32)).
    { split; [apply Qmult_le_0_compat; [auto|apply Qinv_le_0_compat; lra]|]. apply Qle_shift_div_r; [lra|]. rewrite f2.
      assert (h3 : cnt n * 2 ^ (-32) <= 2 ^ 32 * 2 ^ (-32)) by (apply Qmult_le_compat_r; [auto|apply Qlt_le_weak; reflexivity]).
      assert (h4 : 2 ^ 32 * 2 ^ (-32) == 1) by reflexivity.
      assert (h5 : (1 - 2 ^ (-32)) * cnt n == cnt n - cnt n * 2 ^ (-32)) by ring. lra. }
    assert (hp : 0 < 2 ^ (-32)) by reflexivity.
    assert (hr : FloatRound.rounds (f64_val s / f64_val N) (SFdiv fprec femax s N)) by (apply div_rounds; auto; lra).
    pose proof (@FloatRound.rounds_le _ _ u hr u1) as hu. pose proof (@rounds_ge _ _ (lzero : f64) hr I) as hz. rewrite zero_val in hz.
    rewrite u2 in hu. specialize (hu (proj2 hq)). specialize (hz (proj1 hq)).
    destruct one_val as [o1 o2]. set (y := SFdiv fprec femax s N) in *. assert (hy : f64_finite y) by apply hr. clearbody y.
    assert (hs : FloatRound.rounds (f64_val (lone : f64) - f64_val y) (lsub (lone : f64) y)) by (apply sub_rounds; auto; lra).
    split; [apply hs|].
    set (w := S754_finite false 4503599627370496 (-84) : f64).
    assert (w1' : f64_finite w) by reflexivity. assert (w2' : f64_val w == 2 ^ (-32)) by reflexivity.
    pose proof (@FloatRound.rounds_ge _ _ w hs w1') as hw. rewrite w2', o2 in hw. assert (2 ^ (-32) <= f64_val (lsub (lone : f64) y)) by (apply hw; lra). lra.
  Qed.

  (** ** the searches with [c] medoids *)
  Section Med.
    Variable med0 : list nat.
    Variable maxiter : nat.
    Hypothesis hs : sizes n (length med0).
    Hypothesis hm : medoids n (length med0) med0.
    Local Notation k0 := (length med0).
    Let hin : inr n med0 := proj2 (proj2 hm).
    Let hnd : NoDup med0 := proj1 (proj2 hm).
    Local Notation rounds := (DynFacts.rounds (Lt := f64) M n med0 maxiter).

    Lemma round_not_nan c s : (3 <= k0)%nat -> rounds c s -> not_nan (to_silhouette M (m_loss s)).
    Proof.
      intros h3 hr. pose proof (rounds_stage HM hs hin h3 hr) as hst. destruct (sg_inv hst) as [i1 i2 i3 i4].
      apply silhouette_not_nan. apply (ratio_sum_nonneg i2 i3). apply (sg_sum hst Hdg Hzz).
    Qed.

    Lemma round_near c s : (3 <= k0)%nat -> (3 <= c)%nat -> rounds c s -> c = k0 \/ (k0 <= 4)%nat ->
      loss_near n D (m_med s) (m_loss s) /\ f64_val (m_loss s) <= cnt (n - 1) /\
      forall o, (o < n)%nat -> nearest v o (m_med s) (nth o (assignment3_of (m_data s)) 0%nat).
    Proof.
      intros h3 hc hr hg. pose proof (rounds_stage HM hs hin h3 hr) as hst. destruct (sg_inv hst) as [i1 i2 i3 i4].
      assert (i3' : data3_ok n D True (m_med s) (m_data s)) by (apply data3_weaken with (2 := i3); auto).
      pose proof (sg_sum hst Hdg Hzz) as hsum. pose proof i3' as [hl hd].
      destruct (@sum2_near (m_med s) (m_data s) (m_loss s)) as [q1 q2]; auto; [lia|intros o r h; apply rec3_rec2; auto|].
      split; [auto|]. split; [auto|]. destruct (sg_own hst Hdg Hemb hnd) as [_ g2]. apply (assi3_facts HD i2 i3' g2).
    Qed.

    Lemma two_near med2 (r2 : pam_result f64) : medoids n 2 med2 -> fastermsc_k2 M med2 maxiter = Ok r2 ->
      medoids n 2 (r_med r2) /\ length (r_assi r2) = n /\
      (forall o, (o < n)%nat -> nearest v o (r_med r2) (nth o (r_assi r2) 0%nat)) /\
      (maxiter = 0%nat -> r_med r2 = med2) /\
      exists s, r_loss r2 = to_silhouette M s /\ loss_near n D (r_med r2) s /\ f64_val s <= cnt (n - 1).
    Proof.
      intros hm2 e. pose proof hm2 as (hl2 & _). assert (hs2 : sizes n 2) by (unfold sizes in hs |- *; lia).
      unfold fastermsc_k2 in e. rewrite hl2 in e. cbn [Nat.eqb assertb bind] in e.
      destruct (k2_initial (Lt := f64) HD hs2 hm2) as (loss2 & assi2 & data2 & e2 & h2). rewrite e2, (len_n HM) in e. cbn [bind] in e.
      pose proof (fastermsc_k2_near HD HE Hn1 Hn32 maxiter (h2 n) eq_refl eq_refl eq_refl) as h.
      apply oks_inv in h as (s & es & a1 & _). rewrite es in e. cbn [bind] in e. injection e as <-. cbn [r_med r_assi r_loss].
      pose proof a1 as [[b1 b2 (xs & b3 & b4)] b5].
      split; [split; auto|]. split; [apply b3|]. split.
      { intros o ho. destruct (tab2_get b3 ho) as (a & d & x & ha & hd & hx & hobj).
        destruct (obj2_entry HD b1 b2 ho hobj) as (ha2 & _ & hle). rewrite (nth_error_nth _ _ 0%nat ha).
        split; [lia|]. intros c hc. rewrite b1 in hc. destruct (Nat.eq_dec c a) as [->|]; [lra|].
        replace c with (1 - a)%nat by lia. exact hle. }
      split. { intros ->. cbn in es. injection es as <-. reflexivity. }
      exists (k_loss s). split; [reflexivity|]. split; [apply (kg_loss2 HD HE Hn1 Hn32 a1)|].
      destruct (k_med s) as [|j m'] eqn:em; [discriminate b1|]. rewrite <- em in *.
      assert (hj : In j (k_med s)) by (rewrite em; left; auto).
      eapply Qle_trans; [apply (tab2_far HD HE Hn1 Hn32 j b1 b2 b3 b4 hj)|].
      unfold cnt. rewrite <- Zle_Qle. pose proof (far_less HD Hn1 Hn32 (b2 j hj)). lia.
    Qed.

    (** [x] is the silhouette computed for the medoids [meds] *)
    Definition listed (meds : list nat) (x : f64) : Prop :=
      exists s, x = to_silhouette M s /\ loss_near n D meds s /\ f64_val s <= cnt (n - 1).

    Record dyn_near (mk : nat) (r : dyn_result f64) : Prop := {
      dn_len : length (d_losses r) = (k0 - mk + 1)%nat;
      dn_max : forall x, In x (d_losses r) -> not_nan x /\ lltb (r_loss (d_res r)) x = false;
      dn_k : (mk <= length (r_med (d_res r)) /\ 2 <= length (r_med (d_res r)) <= k0)%nat;
      dn_med : medoids n (length (r_med (d_res r))) (r_med (d_res r));
      dn_nth : nth (length (r_med (d_res r)) - mk) (d_losses r) lzero = r_loss (d_res r);
      dn_assi : length (r_assi (d_res r)) = n;
      dn_assi_lt : forall o, (o < n)%nat -> (nth o (r_assi (d_res r)) 0 < length (r_med (d_res r)))%nat;
      dn_pos : not_nan (r_loss (d_res r)) /\ lltb lzero (r_loss (d_res r)) = true;
      dn_own : (3 <= length (r_med (d_res r)))%nat -> own_clusters (d_res r);
      dn_value : length (r_med (d_res r)) = k0 \/ length (r_med (d_res r)) = 2%nat \/ (k0 <= 4)%nat ->
        listed (r_med (d_res r)) (r_loss (d_res r)) /\
        (forall o, (o < n)%nat -> nearest v o (r_med (d_res r)) (nth o (r_assi (d_res r)) 0%nat));
      dn_listed : forall c, c = k0 \/ c = 2%nat \/ (k0 <= 4)%nat -> (mk <= c)%nat -> (2 <= c <= k0)%nat ->
        exists meds, medoids n c meds /\ listed meds (nth (c - mk) (d_losses r) lzero)
    }.

    Lemma dynmsc_near mink : (2 <= k0)%nat ->
      exists r : dyn_result f64, dynmsc M med0 mink maxiter = Ok r /\
        dyn_facts M n med0 maxiter (Nat.min (Nat.max mink 1) k0) r /\
        dyn_near (Nat.min (Nat.max mink 1) k0) r.
    Proof.
      intros hk. pose proof (dynmsc_facts (Lt := f64) HM maxiter mink hs hin hk) as h.
      apply oks_inv in h as (r & e & hf). exists r. split; [auto|]. split; [auto|]. clear e.
      set (mk := Nat.min (Nat.max mink 1) k0) in *. assert (hmk : (1 <= mk <= k0)%nat) by (unfold mk; lia). clearbody mk.
      assert (P3 : forall c s, (3 <= c)%nat -> rounds c s -> (3 <= k0)%nat).
      { intros c s hc hr. destruct (le_lt_dec 3 k0) as [|h3]; [auto|exfalso].
        assert (L : forall c s, rounds c s -> (c <= k0)%nat) by (clear; induction 1; lia). specialize (L _ _ hr). lia. }
      assert (PR : forall c s, (3 <= c)%nat -> rounds c s -> not_nan (to_silhouette M (m_loss s))).
      { intros c s hc hr. apply (round_not_nan (P3 _ _ hc hr) hr). }
      assert (P2 : forall med2 r2, (mk <= 2)%nat -> two (Lt := f64) M n med0 maxiter med2 -> fastermsc_k2 M med2 maxiter = Ok r2 ->
        medoids n 2 (r_med r2) /\ length (r_assi r2) = n /\
        (forall o, (o < n)%nat -> nearest v o (r_med r2) (nth o (r_assi r2) 0%nat)) /\ listed (r_med r2) (r_loss r2)).
      { intros med2 r2 h2 ht e. destruct (two_medoids HD hs hm hk hmk ht) as (t1 & t2 & _).
        destruct (two_near t2 e) as (q1 & q2 & q3 & _ & q4). auto. }
      assert (LN : forall meds x, listed meds x -> not_nan x /\ lltb lzero x = true).
      { intros meds x (s & -> & [w _] & h2). destruct (silhouette_pos w h2) as [f1 f2].
        split; [intros e; rewrite e in f1; exact f1|]. apply SFltb_val; [exact I|exact f1|]. change (0 < f64_val (to_silhouette M s)). exact f2. }
      destruct (df_ord hf not_nan_order) as (o0 & o1 & o2); [discriminate|exact PR| |].
      { intros med2 r2 h2 ht e. apply (LN (r_med r2)). apply (P2 med2 r2 h2 ht e). }
      assert (NN : forall x, In x (d_losses r) -> not_nan x).
      { intros x hx. apply (In_nth _ _ lzero) in hx as (c & hc & <-). rewrite (df_len hf) in hc.
        replace c with ((c + mk) - mk)%nat by lia. destruct (le_lt_dec 3 (c + mk)) as [h3|h3].
        - destruct (df_three hf (c := c + mk)) as (s & hr & ->); [lia|lia|]. apply (PR (c + mk)%nat); auto.
        - destruct (Nat.eq_dec (c + mk) 2) as [e2|e2].
          + rewrite e2. destruct (df_two hf) as (med2 & r2 & ht & e & ->); [lia|]. apply (LN (r_med r2)). apply (P2 med2 r2); auto. lia.
          + replace (c + mk - mk)%nat with 0%nat by lia. rewrite (df_one hf) by lia. discriminate. }
      assert (LS : forall c, c = k0 \/ c = 2%nat \/ (k0 <= 4)%nat -> (mk <= c)%nat -> (2 <= c <= k0)%nat ->
        exists meds, medoids n c meds /\ listed meds (nth (c - mk) (d_losses r) lzero)).
      { intros c hg h1 h2. destruct (Nat.eq_dec c 2) as [->|hc].
        - destruct (df_two hf) as (med2 & r2 & ht & e & ->); [lia|]. destruct (P2 med2 r2 h1 ht e) as (q1 & _ & _ & q4). eauto.
        - assert (h3 : (3 <= k0)%nat) by lia. assert (hc3 : (3 <= c)%nat) by lia.
          destruct (df_three hf (c := c)) as (s & hr & ->); [lia|lia|].
          destruct (round_near h3 hc3 hr) as (q1 & q2 & _); [lia|].
          destruct (rounds_shape HD hs hm h3 hr) as (m1 & _). exists (m_med s). split; [auto|]. exists (m_loss s). auto. }
      assert (hpos : lltb lzero (r_loss (d_res r)) = true).
      { destruct (LS k0) as (meds & _ & hl); [auto|lia|lia|]. destruct (LN _ _ hl) as [l1 l2].
        assert (hx : In (nth (k0 - mk) (d_losses r) lzero) (d_losses r)) by (apply nth_In; rewrite (df_len hf); lia).
        specialize (o2 _ hx). destruct (lltb lzero (r_loss (d_res r))) eqn:ez; [auto|exfalso].
        assert (ht : le64 (nth (k0 - mk) (d_losses r) lzero) (lzero : f64)).
        { apply le64_trans with (r_loss (d_res r)); auto. discriminate. }
        unfold le64 in ht. change (lltb (lzero : f64) (nth (k0 - mk) (d_losses r) lzero) = false) in ht. congruence. }
      destruct (df_best hf) as [(b1 & _)|[(c & s & c1 & c2 & c3 & c4 & c5 & c6 & c7)|
                                (med2 & r2 & c1 & c2 & c3 & c4 & c5 & c6 & c7)]].
      - exfalso. rewrite b1 in hpos. discriminate hpos.
      - assert (h3 : (3 <= k0)%nat) by lia. destruct (rounds_shape HD hs hm h3 c3) as (m1 & m2 & m3 & m9).
        pose proof m1 as (m4 & _).
        constructor; rewrite ?c7, ?m4, ?c6; auto; try lia; try apply (df_len hf).
        + intros x hx. split; [auto|]. apply o2. auto.
        + intros _ x hx. rewrite c6, c7 in *. apply m9. lia.
        + intros hc. destruct (round_near h3 (proj1 c2) c3) as (g1 & g2 & g3); [lia|].
          rewrite c5. split; [exists (m_loss s); auto|auto].
      - destruct (P2 med2 r2 c1 c2 c3) as (m1 & m2 & m3 & m5). pose proof m1 as (m4 & _).
        constructor; rewrite ?c7, ?m4, ?c6; auto; try lia; try apply (df_len hf).
        + intros x hx. split; [auto|]. apply o2. auto.
        + intros o ho. rewrite <- m4. apply (m3 o ho).
        + intros _. rewrite c5. auto.
    Qed.

    (** ** which medoid is dropped *)
    Hypothesis HA : adds_within serr n D.

    Lemma round_rl c s : (3 <= k0)%nat -> (3 <= c)%nat -> rounds c s -> c = k0 \/ (k0 <= 4)%nat -> rl_near3 n (m_data s) (m_rl s).
    Proof.
      intros h3 hc hr hg. pose proof (rounds_stage HM hs hin h3 hr) as hst. destruct (sg_start hst) as (s0 & hs0 & e).
      assert (hg0 : m_core n D c s0).
      { destruct hs0 as [[i1 i2 i3 i4] (rl & l1 & l2) h4 h5 h6 h7 h8]. destruct (h7 v Hdg Hemb hnd) as [o1 o2].
        assert (i3' : data3_ok n D True (m_med s0) (m_data s0)) by (apply data3_weaken with (2 := i3); auto).
        constructor; auto.
        - constructor; auto.
        - assert (hl : length rl = length (m_med s0)) by lia. assert (hk' : (3 <= length (m_med s0))%nat) by lia.
          pose proof (update_removal_loss3_near HD HE Hn1 Hn32 rl i2 hk' i3' hl) as hu.
          apply oks_elim with (2 := l2) in hu. apply hu. }
      pose proof hs0 as [_ _ q1 q2 q3 _ _].
      pose proof (fastermsc_near HD HE Hn1 Hn32 HA maxiter hc hg0 q1 q2 q3) as hrun.
      apply oks_elim with (2 := e) in hrun. apply (mc_rl (proj1 hrun)).
    Qed.

    (** the medoid which is dropped is nearly the one whose absence costs most *)
    Lemma removal_worst_near c s b : (3 <= k0)%nat -> (3 <= c)%nat -> rounds c s -> c = k0 \/ (k0 <= 4)%nat ->
      snd (min_removal (m_rl s)) = Some b ->
      forall med', drop_one (m_med s) med' -> rtot v n med' <= rtot v n (removed (m_med s) b) + 2 * (cnt (4 * n) * dl n).
    Proof.
      intros h3 hc hr hg hb med' hdrop. pose proof (rounds_stage HM hs hin h3 hr) as hst. destruct (sg_inv hst) as [i1 i2 i3 i4].
      assert (i3' : data3_ok n D True (m_med s) (m_data s)) by (apply data3_weaken with (2 := i3); auto).
      pose proof (round_rl h3 hc hr hg) as hrl.
      assert (hfin : forall x, In x (m_rl s) -> f64_finite x).
      { intros x hx. apply (In_nth _ _ (lzero : f64)) in hx as (i & hi & <-). apply (hrl i hi). }
      destruct (min_removal_least _ finite_order hfin hb) as [b1 b2].
      apply drop_removed in hdrop as (x & hx & hp).
      assert (hl : (2 <= length (removed (m_med s) x))%nat) by (rewrite length_removed; lia).
      rewrite <- (rtot_perm v n hl hp).
      assert (hx' : (x < length (m_rl s))%nat) by lia. specialize (b2 x hx'). cbv beta in b2.
      destruct (hrl b b1) as [_ [e1 e1']]. destruct (hrl x hx') as [_ [e2 e2']].
      assert (hb' : (b < length (m_med s))%nat) by lia. assert (hk' : (3 <= length (m_med s))%nat) by lia.
      rewrite (removal_delta HD i2 hk' hb' i3') in e1, e1'. rewrite (removal_delta HD i2 hk' hx i3') in e2, e2'. lra.
    Qed.

    Lemma first_removal_near mink : (3 <= k0)%nat -> maxiter = 0%nat -> (Nat.max mink 1 < k0)%nat ->
      exists (r : dyn_result f64) med', dynmsc M med0 mink maxiter = Ok r /\ drop_one med0 med' /\
        listed med' (nth (k0 - 1 - Nat.max mink 1) (d_losses r) lzero) /\
        forall med'', drop_one med0 med'' -> rtot v n med'' <= rtot v n med' + 2 * (cnt (4 * n) * dl n).
    Proof.
      intros h3 hz hlt. assert (hz' : (maxiter <= 0)%nat) by lia. clear hz. assert (hk : (2 <= k0)%nat) by lia.
      destruct (dynmsc_near mink hk) as (r & e & hf & _).
      replace (Nat.min (Nat.max mink 1) k0) with (Nat.max mink 1) in hf by lia.
      set (mk := Nat.max mink 1) in *. assert (hmk : (1 <= mk <= k0)%nat) by (unfold mk; lia). clearbody mk.
      assert (C : forall s b med' data' loss', rounds k0 s -> snd (min_removal (m_rl s)) = Some b ->
        remove_med M (m_med s) (m_data s) b = Ok (med', data', loss') ->
        med' = removed med0 b /\ loss_near n D med' loss' /\ f64_val loss' <= cnt (n - 1) /\ (b < k0)%nat /\
        forall med'', drop_one med0 med'' -> rtot v n med'' <= rtot v n med' + 2 * (cnt (4 * n) * dl n)).
      { intros s b med' data' loss' hr hb hrm.
        assert (hmed : m_med s = med0).
        { inversion hr as [loss data rl s1 e1 e2 e3|c s1 b1 m1 d1 l1 rl1 s1' hr' _ _ _ _ _ e1 e2]; subst.
          - replace maxiter with 0%nat in e3 by lia. cbn in e3. injection e3 as <-. auto.
          - pose proof (DynExact.rounds_le HD hs hm h3 hr'). lia. }
        pose proof (@removal_worst_near k0 s b h3 h3 hr (or_introl eq_refl) hb) as hw.
        pose proof (rounds_stage HM hs hin h3 hr) as hst. destruct (sg_inv hst) as [i1 i2 i3 i4].
        assert (i3' : data3_ok n D True (m_med s) (m_data s)) by (apply data3_weaken with (2 := i3); left; auto).
        destruct (stage_removal HM Hn1 h3 hst) as (b' & _ & _ & _ & f1 & f2 & _). rewrite hb in f1. injection f1 as <-.
        assert (hb2 : (b < length (m_med s))%nat) by lia. assert (h3' : (3 <= length (m_med s))%nat) by lia.
        pose proof (remove_med_ok (Lt := f64) HM Hn1 i2 hb2 h3' i3') as ho.
        apply oks_elim with (2 := hrm) in ho. destruct ho as (-> & o2 & o3 & o4 & _).
        destruct (@sum2_near (removed (m_med s) b) data' loss') as [g1 g2]; auto.
        - apply removed_inr; auto.
        - rewrite length_removed; lia.
        - intros o q hq. rewrite length_removed. auto.
        - rewrite hmed in *. auto 10. }
      destruct (Nat.eq_dec k0 3) as [e3|e3].
      - destruct (df_two hf) as (med2 & r2 & t1 & t2 & t3); [lia|].
        destruct (two_medoids HD hs hm hk hmk t1) as (q1 & q2 & q3).
        destruct t1 as [[? _]|(_ & s & b & data' & loss' & f1 & f2 & f3)]; [lia|].
        rewrite <- e3 in f1. destruct (C _ _ _ _ _ f1 f2 f3) as (p2 & p3 & p3' & p4 & p5).
        exists r, med2. split; [auto|]. split; [subst med2; apply removed_drop; auto|]. split; [|auto].
        replace (k0 - 1 - mk)%nat with (2 - mk)%nat by lia. rewrite t3.
        destruct (two_near q2 t2) as (_ & _ & _ & x1 & x2). rewrite x1 in x2 by lia. exact x2.
      - destruct (df_three hf (c := k0 - 1)) as (s' & hr & hl); [lia|lia|].
        inversion hr as [loss data rl s1 e1 e2 e4 e5|c s1 b1 m1 d1 l1 rl1 s1' hr' _ f1 f2 f3 f4 e1 e2]; subst; [lia|].
        replace (S (k0 - 1)) with k0 in hr' by lia.
        destruct (C _ _ _ _ _ hr' f1 f2) as (p2 & p3 & p3' & p4 & p5).
        replace maxiter with 0%nat in f4 by lia. cbn in f4. injection f4 as <-. cbn [m_loss] in hl.
        exists r, m1. split; [auto|]. split; [subst m1; apply removed_drop; auto|]. split; [|auto].
        rewrite hl. exists l1. auto.
    Qed.
  End Med.
End Dyn.
