(** FloatSil.v -- the silhouettes in binary64: rounding does not leave the range of the exact value *)
From Coq Require Import ZArith QArith Qpower Lqa Lia.
From Coq.Floats Require Import SpecFloat.
From Verif Require Import Base Num M_Mat M_Util M_Silhouette Inst Hoare Spec Laws FloatFacts FloatExact FloatRound SilFacts.
Set Implicit Arguments.
Open Scope Q_scope.

(** finite and within [lo, hi] *)
Definition within (lo hi : Q) (x : f64) : Prop := f64_finite x /\ lo <= f64_val x /\ f64_val x <= hi.
(** a binary64 number *)
Definition repr (q : Q) : Prop := exists a, f64_finite a /\ f64_val a == q.

Lemma repr_grid z g : (Z.abs z <= 2 ^ 53)%Z -> (-1074 <= g <= 970)%Z -> repr (inject_Z z * 2 ^ g).
Proof.
  intros h1 h2. exists (binary_normalize fprec femax z g false).
  apply normalize_exact; auto. reflexivity.
Qed.

Lemma repr_Z z : (Z.abs z <= 2 ^ 53)%Z -> repr (inject_Z z).
Proof.
  intros h. destruct (@repr_grid z 0 h ltac:(lia)) as (a & h1 & h2). exists a. split; [exact h1|].
  rewrite h2. change (2 ^ 0) with 1. ring.
Qed.

Lemma repr_val x : f64_finite x -> repr (f64_val x).
Proof. intros h. exists x. split; [exact h|reflexivity]. Qed.

Lemma rounds_within lo hi x y : repr lo -> repr hi -> lo <= x -> x <= hi -> rounds x y -> within lo hi y.
Proof.
  intros (a & a1 & a2) (b & b1 & b2) h1 h2 h. split; [apply h|]. split.
  - rewrite <- a2. apply rounds_ge with (1 := h); auto. lra.
  - rewrite <- b2. apply rounds_le with (1 := h); auto. lra.
Qed.

Lemma within_ext lo hi lo' hi' x : lo == lo' -> hi == hi' -> within lo hi x -> within lo' hi' x.
Proof. intros h1 h2 (h3 & h4 & h5). split; [exact h3|]. lra. Qed.

Lemma within_sub lo hi lo' hi' x : lo' <= lo -> hi <= hi' -> within lo hi x -> within lo' hi' x.
Proof. intros h1 h2 (h3 & h4 & h5). split; [exact h3|]. lra. Qed.

(** ** sums: n terms within [-b 2^g, 2^g] stay within n times that *)
Definition cnt (n : nat) : Q := inject_Z (Z.of_nat n).
Lemma cnt_S n : cnt (S n) == cnt n + 1.
Proof. unfold cnt. rewrite Nat2Z.inj_succ. unfold Z.succ. rewrite inject_Z_plus. reflexivity. Qed.
Lemma cnt_pos n : 0 <= cnt n.
Proof. unfold cnt. change 0 with (inject_Z 0). rewrite <- Zle_Qle. lia. Qed.
Lemma cnt_le m n : (m <= n)%nat -> cnt m <= cnt n.
Proof. intros h. unfold cnt. rewrite <- Zle_Qle. lia. Qed.

Definition fits53 (n : nat) : Prop := (Z.of_nat n <= 2 ^ 52)%Z.
Lemma fits_u32 n : (N.of_nat n <= 4294967295)%N -> fits53 n.
Proof. intros h. unfold fits53. lia. Qed.

Lemma repr_cnt n g : fits53 n -> (-1074 <= g <= 970)%Z -> repr (cnt n * 2 ^ g).
Proof. intros h hg. apply repr_grid; auto. unfold fits53 in h. lia. Qed.

Lemma repr_neg_cnt n g : fits53 n -> (-1074 <= g <= 970)%Z -> repr (- cnt n * 2 ^ g).
Proof.
  intros h hg. destruct (@repr_grid (- Z.of_nat n) g) as (a & h1 & h2); auto; [unfold fits53 in h; lia|].
  exists a. split; [exact h1|]. rewrite h2, inject_Z_opp. reflexivity.
Qed.

Lemma repr_0 : repr 0.
Proof. exists (S754_zero false). split; [exact I|reflexivity]. Qed.

Lemma cnt_big n g : fits53 n -> (g <= 970)%Z -> cnt n * 2 ^ g <= 2 ^ 1022.
Proof.
  intros h hg. pose proof (pow2_pos g) as pg. apply Qle_trans with (2 ^ 52 * 2 ^ g).
  - apply Qmult_le_compat_r; [|lra]. unfold cnt. change (2 ^ 52) with (inject_Z (2 ^ 52)). rewrite <- Zle_Qle. exact h.
  - rewrite <- Qpower_plus by discriminate. apply pow2_le. lia.
Qed.

Lemma big2 : 2 ^ 1022 + 2 ^ 1022 == 2 ^ 1023.
Proof. reflexivity. Qed.

Lemma add_within_pos n g a b : fits53 (S n) -> (-1074 <= g <= 970)%Z ->
  within 0 (cnt n * 2 ^ g) a -> within 0 (2 ^ g) b -> within 0 (cnt (S n) * 2 ^ g) (SFadd fprec femax a b).
Proof.
  intros hn hg (a1 & a2 & a3) (b1 & b2 & b3). pose proof (pow2_pos g) as pg.
  pose proof (@cnt_big (S n) g hn ltac:(lia)) as hb. rewrite cnt_S in hb.
  pose proof big2 as hB. assert (h1 : 0 < 2 ^ 1022) by reflexivity.
  assert (hle : f64_val a + f64_val b <= cnt (S n) * 2 ^ g) by (rewrite cnt_S; lra).
  apply rounds_within with (f64_val a + f64_val b); [apply repr_0|apply repr_cnt; auto|lra|exact hle|].
  apply add_rounds; auto; lra.
Qed.

Lemma add_within_sym n g a b : fits53 (S n) -> (-1074 <= g <= 970)%Z ->
  within (- cnt n * 2 ^ g) (cnt n * 2 ^ g) a -> within (- 2 ^ g) (2 ^ g) b ->
  within (- cnt (S n) * 2 ^ g) (cnt (S n) * 2 ^ g) (SFadd fprec femax a b).
Proof.
  intros hn hg (a1 & a2 & a3) (b1 & b2 & b3). pose proof (pow2_pos g) as pg.
  pose proof (@cnt_big (S n) g hn ltac:(lia)) as hb. rewrite cnt_S in hb.
  pose proof big2 as hB. assert (h1 : 0 < 2 ^ 1022) by reflexivity.
  assert (hle : f64_val a + f64_val b <= cnt (S n) * 2 ^ g) by (rewrite cnt_S; lra).
  assert (hge : - cnt (S n) * 2 ^ g <= f64_val a + f64_val b) by (rewrite cnt_S; lra).
  apply rounds_within with (f64_val a + f64_val b); [apply repr_neg_cnt; auto|apply repr_cnt; auto|exact hge|exact hle|].
  apply add_rounds; auto; lra.
Qed.

(** ** counts *)
Lemma of_nat_val n : fits53 n -> f64_finite (f64_of_Z (Z.of_nat n)) /\ f64_val (f64_of_Z (Z.of_nat n)) == cnt n.
Proof.
  intros h. destruct (@grid_of_Z (Z.of_nat n)) as [h1 h2]; [unfold fits53 in h; lia|]. split; [exact h1|].
  rewrite h2. change (2 ^ 0) with 1. unfold cnt. ring.
Qed.

(** a quotient within the bounds divided by the divisor *)
Lemma div_within lo hi a b : f64_finite a -> f64_finite b -> 0 < f64_val b -> repr lo -> repr hi ->
  - 2 ^ 1023 <= lo -> hi <= 2 ^ 1023 ->
  lo * f64_val b <= f64_val a -> f64_val a <= hi * f64_val b -> within lo hi (SFdiv fprec femax a b).
Proof.
  intros ha hb h0 hl hh h1 h2 h3 h4.
  assert (l : lo <= f64_val a / f64_val b) by (apply Qle_shift_div_l; auto).
  assert (u : f64_val a / f64_val b <= hi) by (apply Qle_shift_div_r; auto).
  apply rounds_within with (f64_val a / f64_val b); auto. apply div_rounds; auto; lra.
Qed.

(** ** [checked_div] *)
Lemma checked_div_within lo hi (a b : f64) : f64_finite a -> f64_finite b -> 0 <= f64_val b -> repr lo -> repr hi ->
  - 2 ^ 1023 <= lo -> hi <= 2 ^ 1023 -> lo <= 0 -> 0 <= hi ->
  lo * f64_val b <= f64_val a -> f64_val a <= hi * f64_val b -> within lo hi (checked_div a b).
Proof.
  intros ha hb h0 hl hh h1 h2 h5 h6 h3 h4. unfold checked_div. cbn [lltb lzero ldiv NumL_f64].
  destruct (SFltb (S754_zero false) b) eqn:e.
  - apply SFltb_val in e; auto; [|exact I]. apply div_within; auto.
  - split; [exact I|]. cbn [f64_val]. lra.
Qed.

(** ** the silhouette of one object *)
Definition big_g : Z := 970.
Definition entry_within (p : nat * f64) : Prop := fits53 (fst p) /\ within 0 (cnt (fst p) * 2 ^ big_g) (snd p).

Lemma repr_big : repr (2 ^ big_g).
Proof. destruct (@repr_cnt 1 big_g) as (a & h1 & h2); [unfold fits53; lia|unfold big_g; lia|]. exists a. split; [exact h1|].
  rewrite h2. change (cnt 1) with 1. ring. Qed.

Lemma buf_mean_within p : entry_within p -> within 0 (2 ^ big_g) (buf_mean p).
Proof.
  intros [h1 (h2 & h3 & h4)]. destruct (of_nat_val h1) as [c1 c2]. pose proof (cnt_pos (fst p)) as hp.
  assert (hb : 0 < 2 ^ big_g) by reflexivity. assert (hB : 2 ^ big_g <= 2 ^ 1023) by (apply Qlt_le_weak; reflexivity).
  unfold buf_mean. cbn [lfrom_u32 NumL_f64]. rewrite nat_N_Z.
  apply checked_div_within; auto; first [apply repr_0|apply repr_big|lra|rewrite c2; lra].
Qed.

Lemma fold_min_within lo hi (l : list f64) x : within lo hi x -> (forall y, In y l -> within lo hi y) ->
  within lo hi (fold_left (fun x y => if lltb y x then y else x) l x).
Proof.
  revert x. induction l as [|y l IH]; intros x hx h; [exact hx|]. cbn [fold_left]. apply IH.
  - destruct (lltb y x); [apply h; left; reflexivity|exact hx].
  - intros z hz. apply h. right. exact hz.
Qed.

Lemma sil_of_buf_within (buf : list (nat * f64)) ai : (forall p, In p buf -> entry_within p) ->
  wk (sil_of_buf buf ai) (within (- (1)) 1).
Proof.
  intros hb. unfold sil_of_buf. apply wk_bind with (fun p => In p buf).
  { unfold idx. destruct (nth_error buf ai) as [p|] eqn:e; [|exact I]. apply nth_error_In in e. exact e. }
  intros p hp. destruct (Nat.ltb 0 (fst p)); [|split; [exact I|]; cbn [lzero NumL_f64 f64_val]; lra].
  cbv zeta.
  set (tmp := map _ _). set (b := match tmp with [] => lzero | t :: ts => _ end).
  assert (hB : 2 ^ big_g <= 2 ^ 1023) by (apply Qlt_le_weak; reflexivity).
  assert (ha : within 0 (2 ^ big_g) (buf_mean p)) by (apply buf_mean_within; auto).
  assert (ht : forall y, In y tmp -> within 0 (2 ^ big_g) y).
  { intros y hy. unfold tmp in hy. apply in_map_iff in hy as ((i & q) & <- & hq). apply filter_In in hq as [hq _].
    apply buf_mean_within, hb. unfold enum in hq. apply in_combine_r in hq. exact hq. }
  assert (hbw : within 0 (2 ^ big_g) b).
  { unfold b. destruct tmp as [|t ts].
    - split; [exact I|]. cbn [lzero NumL_f64 f64_val]. split; [lra|apply Qlt_le_weak; reflexivity].
    - apply fold_min_within; [apply ht; left; reflexivity|]. intros y hy. apply ht. right. exact hy. }
  clearbody b. set (a := buf_mean p) in *. clearbody a. destruct ha as (a1 & a2 & a3). destruct hbw as (b1 & b2 & b3).
  pose proof (@sub_rounds b a b1 a1 ltac:(lra) ltac:(lra)) as hs.
  assert (hlo : - f64_val a <= f64_val (SFsub fprec femax b a)).
  { rewrite <- val_opp. apply rounds_ge with (1 := hs); [apply finite_opp; exact a1|]. rewrite val_opp. lra. }
  assert (hhi : f64_val (SFsub fprec femax b a) <= f64_val b).
  { apply rounds_le with (1 := hs); [exact b1|]. lra. }
  cbn [wk]. change (lsub b a) with (SFsub fprec femax b a).
  assert (hm : forall m, (m = a \/ m = b) -> f64_val a <= f64_val m -> f64_val b <= f64_val m ->
    within (- (1)) 1 (checked_div (SFsub fprec femax b a) m)).
  { intros m hm h1 h2. assert (hf : f64_finite m) by (destruct hm as [->| ->]; auto).
    apply checked_div_within; auto; try lra.
    - apply hs.
    - destruct (@repr_Z (-1)) as (x & x1 & x2); [lia|]. exists x. split; [exact x1|]. rewrite x2. reflexivity.
    - destruct (@repr_Z 1) as (x & x1 & x2); [lia|]. exists x. split; [exact x1|]. rewrite x2. reflexivity. }
  cbn [lltb NumL_f64]. destruct (SFltb b a) eqn:e.
  - apply SFltb_val in e; auto. apply hm; auto; lra.
  - apply hm; auto; [|lra]. apply Qnot_lt_le. intros c. apply SFltb_val in c; auto. congruence.
Qed.

(** ** [silhouette] *)
Section Sil.
  Context {Nt : Type} `{HFN : FromN Nt f64}.
  Variable M : Mat Nt.
  Variable n : nat.
  Variable D : nat -> nat -> Nt.
  Hypothesis HM : is_matrix M n D.
  Hypothesis HB : forall x y, (x < n)%nat -> (y < n)%nat -> within 0 (2 ^ big_g) (lfrom (D x y)).

  Lemma sil_buf_within assi i : (length assi <= n)%nat -> fits53 (length assi) -> (i < n)%nat ->
    oks (sil_buf (Lt := f64) M assi i) (fun buf => forall p, In p buf -> entry_within p).
  Proof.
    intros hl hf hi.
    assert (z : entry_within (0%nat, S754_zero false)).
    { split; [unfold fits53; cbn [fst]; lia|]. split; [exact I|]. cbn [f64_val snd fst]. change (cnt 0) with 0. lra. }
    assert (h : oks (sil_buf (Lt := f64) M assi i) (fun buf => forall c,
       entry_within (nth c buf (0%nat, lzero)) /\ (fst (nth c buf (0%nat, lzero)) <= length assi)%nat)).
    { unfold sil_buf. apply foldM_enum with (I := fun t (buf : list (nat * f64)) => forall c,
         entry_within (nth c buf (0%nat, lzero)) /\ (fst (nth c buf (0%nat, lzero)) <= t)%nat).
      - intros c. destruct c; (split; [exact z|cbn; lia]).
      - intros j a buf e hb. apply nth_error_lt in e as hj. cbv zeta. destruct (Nat.eqb i j); cbn [negb].
        + cbn [oks]. intros c. rewrite nth_grow. destruct (hb c). split; [assumption|lia].
        + rewrite (@idx_nth _ _ _ (0%nat, lzero)) by (rewrite length_grow; lia). cbn [bind].
          rewrite (proj2 (proj2 HM)) by lia. cbn [bind].
          rewrite upd_ok by (rewrite length_grow; lia). cbn [oks]. intros c.
          rewrite nth_set_nth by (rewrite length_grow; lia). rewrite !nth_grow.
          destruct (Nat.eqb c a) eqn:ec; [|destruct (hb c); split; [assumption|lia]].
          destruct (hb a) as [[q1 q2] q3]. cbn [fst snd]. split; [|lia].
          assert (hc : fits53 (S (fst (nth a buf (0%nat, lzero))))) by (unfold fits53 in *; lia).
          split; [exact hc|]. cbn [fst snd]. apply add_within_pos; auto; [unfold big_g; lia|].
          apply HB; lia. }
    apply oks_inv in h as (buf & -> & h). cbn [oks]. intros p hp. apply (In_nth _ _ (0%nat, lzero)) in hp as (c & _ & <-).
    apply h.
  Qed.

  Lemma sum_sym_within (l : list f64) : fits53 (length l) -> (forall s, In s l -> within (- (1)) 1 s) ->
    within (- cnt (length l)) (cnt (length l)) (fold_left ladd l lzero).
  Proof.
    assert (G : forall (l : list f64) t a, fits53 (t + length l) -> (forall s, In s l -> within (- (1)) 1 s) ->
      within (- cnt t * 2 ^ 0) (cnt t * 2 ^ 0) a ->
      within (- cnt (t + length l) * 2 ^ 0) (cnt (t + length l) * 2 ^ 0) (fold_left ladd l a)).
    { intros l0. induction l0 as [|s l0 IH]; intros t a hf hs ha; cbn [fold_left length] in *.
      - rewrite Nat.add_0_r. exact ha.
      - replace (t + S (length l0))%nat with (S t + length l0)%nat in * by lia. apply IH; auto.
        + intros s' h. apply hs. right. exact h.
        + apply add_within_sym; auto; [unfold fits53 in *; lia|lia|]. apply hs. left. reflexivity. }
    intros hf hs. specialize (G l 0%nat lzero hf hs). cbn [plus] in G.
    eapply within_ext; [| |apply G]; [change (2 ^ 0) with 1; ring..|].
    split; [exact I|]. cbn [lzero NumL_f64 f64_val]. change (cnt 0) with 0. lra.
  Qed.

  Lemma mean_within l m : (0 < m)%nat -> fits53 m -> f64_finite l -> - cnt m <= f64_val l -> f64_val l <= cnt m ->
    within (- (1)) 1 (SFdiv fprec femax l (f64_of_Z (Z.of_nat m))).
  Proof.
    intros hm hf h1 h2 h3. destruct (of_nat_val hf) as [c1 c2].
    assert (hp : 0 < cnt m) by (unfold cnt; change 0 with (inject_Z 0); rewrite <- Zlt_Qlt; lia).
    apply div_within; auto; try lra.
    - destruct (@repr_Z (-1)) as (x & x1 & x2); [lia|]. exists x. split; [exact x1|]. rewrite x2. reflexivity.
    - destruct (@repr_Z 1) as (x & x1 & x2); [lia|]. exists x. split; [exact x1|]. rewrite x2. reflexivity.
  Qed.

  Lemma sil_values_within assi : (length assi <= n)%nat -> fits53 (length assi) ->
    oks (mapM (sil_value (Lt := f64) M assi) (enum assi)) (fun ss => length ss = length assi /\
      forall s, In s ss -> within (- (1)) 1 s).
  Proof.
    intros hl hf. eapply oks_mono.
    - apply mapM_enum with (R := fun _ _ s => within (- (1)) 1 s). intros i a e.
      pose proof (sil_value_oks (Lt := f64) HM assi i hl e) as ho. apply nth_error_lt in e as hi.
      unfold sil_value in *. cbn [fst snd] in *.
      pose proof (@sil_buf_within assi i hl hf ltac:(lia)) as hb. apply oks_inv in hb as (buf & eb & hb).
      rewrite eb in *. cbn [bind] in *. pose proof (sil_of_buf_within buf a hb) as hw.
      destruct (sil_of_buf buf a); [exact hw|exact ho].
    - intros ss [h1 h2]. split; [exact h1|]. intros s hs. apply In_nth_error in hs as (i & ei).
      assert (hi : (i < length assi)%nat) by (apply nth_error_lt in ei; lia).
      destruct (nth_error_ex assi hi) as [a ea]. eapply h2; eauto.
  Qed.

  (** the average of the values *)
  Lemma sil_avg_within (assi : list nat) (ss : list f64) : (1 <= length assi)%nat -> (N.of_nat (length assi) <= 4294967295)%N ->
    length ss = length assi -> (forall s, In s ss -> within (- (1)) 1 s) ->
    within (- (1)) 1 (ldiv (fold_left ladd ss lzero) (lfrom_u32 (as_u32 (length assi)))).
  Proof.
    intros hl hu hs h. rewrite as_u32_small by exact hu. cbn [lfrom_u32 ldiv NumL_f64]. rewrite nat_N_Z.
    pose proof (sum_sym_within ss) as hw. rewrite hs in hw. destruct (hw (fits_u32 _ hu) h) as (w1 & w2 & w3).
    apply mean_within; auto. apply fits_u32; exact hu.
  Qed.

  Lemma silhouette_within assi samples : (1 <= length assi <= n)%nat -> (N.of_nat (length assi) <= 4294967295)%N ->
    oks (silhouette (Lt := f64) M assi samples) (fun p => within (- (1)) 1 (fst p) /\
      forall s, In s (snd p) -> within (- (1)) 1 s).
  Proof.
    intros hl hu. pose proof (fits_u32 _ hu) as hf.
    assert (z : within (- (1)) 1 (lzero : f64)) by (split; [exact I|]; cbn [lzero NumL_f64 f64_val]; lra).
    destruct (Nat.eq_dec (width assi) 1) as [hw|hw].
    - rewrite silhouette_one; [|exact hw|apply HM|].
      + cbn [oks fst snd]. split; [exact z|]. intros s hs. apply repeat_spec in hs as ->. exact z.
      + pose proof (@sil_buf_within assi 0%nat ltac:(lia) hf ltac:(lia)) as h. apply oks_inv in h as (b & -> & _). eauto.
    - rewrite silhouette_eq by exact hw. rewrite (proj1 (proj2 HM)). cbn [bind assertb].
      pose proof (@sil_values_within assi ltac:(lia) hf) as h. apply oks_inv in h as (ss & -> & h1 & h2).
      cbn [bind oks fst snd]. split; [apply sil_avg_within; auto; lia|].
      destruct samples; [exact h2|intros s []].
  Qed.

  Lemma par_silhouette_within assi : (1 <= length assi <= n)%nat -> (N.of_nat (length assi) <= 4294967295)%N ->
    oks (par_silhouette (Lt := f64) M assi) (within (- (1)) 1).
  Proof.
    intros hl hu. pose proof (fits_u32 _ hu) as hf. unfold par_silhouette. rewrite (proj1 (proj2 HM)). cbn [bind assertb].
    pose proof (@sil_values_within assi ltac:(lia) hf) as h. apply oks_inv in h as (ss & e & h1 & h2).
    replace (mapM (fun '(i, ai) => buf <- sil_buf M assi i;; sil_of_buf buf ai) (enum assi))
      with (mapM (sil_value (Lt := f64) M assi) (enum assi)).
    - rewrite e. cbn [bind oks]. apply sil_avg_within; auto; lia.
    - apply mapM_ext. intros [i a] _. reflexivity.
  Qed.
End Sil.

(** ** errors *)
Lemma rounds_abs x y B : rounds x y -> - B <= x -> x <= B -> 2 ^ (-1022) <= B ->
  - (2 ^ (-53) * B) <= f64_val y - x /\ f64_val y - x <= 2 ^ (-53) * B.
Proof.
  intros (hf & R & e & hR & he & hv & h1 & h2 & h3) hb1 hb2 hB.
  assert (hh : (1 # 2) * 2 ^ e == 2 ^ (-53) * 2 ^ (e + 52)).
  { rewrite <- Qpower_plus by discriminate. replace (-53 + (e + 52))%Z with (e + -1)%Z by lia.
    rewrite Qpower_plus by discriminate. change (2 ^ (-1)) with (1 # 2). ring. }
  assert (hle : 2 ^ (e + 52) <= B). { destruct h3 as [->|[h3|h3]]; [exact hB|lra|lra]. }
  assert (2 ^ (-53) * 2 ^ (e + 52) <= 2 ^ (-53) * B).
  { rewrite !(Qmult_comm (2 ^ (-53))). apply Qmult_le_compat_r; [exact hle|]. apply Qlt_le_weak. reflexivity. }
  lra.
Qed.

(** [y] is close to [x] *)
Definition close (err x : Q) (y : f64) : Prop := - err <= f64_val y - x /\ f64_val y - x <= err.

Lemma close_ext e e' x x' y : e == e' -> x == x' -> close e x y -> close e' x' y.
Proof. intros h1 h2 [h3 h4]. unfold close. lra. Qed.
Lemma close_le e e' x y : e <= e' -> close e x y -> close e' x y.
Proof. intros h1 [h3 h4]. unfold close. lra. Qed.

(** a dissimilarity and its conversion to a loss are the same number *)
Definition exact_from {Nt} `{OrdLaws Nt} `{FromN Nt f64} (n : nat) (D : nat -> nat -> Nt) : Prop :=
  forall x y, (x < n)%nat -> (y < n)%nat -> f64_finite (lfrom (D x y)) /\ f64_val (lfrom (D x y)) == vals D x y.

(** ** [medoid_silhouette] *)
Section MedSil.
  Context {Nt : Type} `{HO : OrdLaws Nt} `{HFN : FromN Nt f64}.
  Variable M : Mat Nt.
  Variable n : nat.
  Variable D : nat -> nat -> Nt.
  Hypothesis HD : nonneg_matrix M n D.
  Hypothesis HE : exact_from n D.
  Notation v := (vals D).
  Notation u := (2 ^ (-53)).

  Lemma repr_1 : repr 1.
  Proof. destruct (@repr_Z 1) as (x & x1 & x2); [lia|]. exists x. split; [exact x1|]. rewrite x2. reflexivity. Qed.

  Lemma one_val : f64_finite (lone : f64) /\ f64_val (lone : f64) == 1.
  Proof. destruct (@of_nat_val 1) as [h1 h2]; [unfold fits53; lia|]. split; [exact h1|exact h2]. Qed.

  (** 1 - s for s close to a number in [0,1] *)
  Lemma one_minus s x err : within 0 1 s -> close err x s ->
    within 0 1 (lsub lone s) /\ close (err + u) (1 - x) (lsub lone s).
  Proof.
    intros (s1 & s2 & s3) [c1 c2]. destruct one_val as [o1 o2]. cbn [lsub NumL_f64].
    assert (hB : 1 <= 2 ^ 1023) by (apply Qlt_le_weak; reflexivity).
    set (w := lone) in *. clearbody w.
    assert (hr : rounds (f64_val w - f64_val s) (SFsub fprec femax w s)).
    { apply sub_rounds; auto; lra. }
    split.
    - apply rounds_within with (f64_val w - f64_val s);
        [apply repr_0|apply repr_1|lra|lra|exact hr].
    - assert (h := rounds_abs (B := 1) hr ltac:(lra) ltac:(lra) ltac:(apply Qlt_le_weak; reflexivity)).
      unfold close. lra.
  Qed.

  (** the two smallest dissimilarities are entries of the matrix *)
  Lemma ms_best_in meds i : (forall m, In m meds -> (m < n)%nat) -> (i < n)%nat ->
    wk (ms_best M meds i) (fun b => exists m1 m2, (m1 < n)%nat /\ (m2 < n)%nat /\ fst b = D i m1 /\ snd b = D i m2).
  Proof.
    intros hin hi. destruct HD as [HM _]. unfold ms_best. destruct meds as [|m0 [|m1 meds]].
    - exact I.
    - cbn [idx nth_error bind]. destruct (mget M i m0); exact I.
    - assert (h0 : (m0 < n)%nat) by (apply hin; simpl; auto). assert (h1 : (m1 < n)%nat) by (apply hin; simpl; auto).
      cbn [idx nth_error bind skipn]. rewrite !(proj2 (proj2 HM)) by auto. cbn [bind].
      assert (ho : oks (foldM (fun best m => d <- mget M i m ;;
             Ok (if nltb d (fst best) then (d, fst best)
                 else if nltb d (snd best) then (fst best, d) else best)) meds
             (if nltb (D i m0) (D i m1) then (D i m0, D i m1) else (D i m1, D i m0)))
        (fun b => exists m1 m2, (m1 < n)%nat /\ (m2 < n)%nat /\ fst b = D i m1 /\ snd b = D i m2)).
      { apply foldM_inv.
        - destruct (nltb (D i m0) (D i m1)); [exists m0, m1|exists m1, m0]; cbn [fst snd]; auto.
        - intros m [b1 b2] hm (x & y & hx & hy & e1 & e2). cbn [fst snd] in *. subst b1 b2.
          assert (hmn : (m < n)%nat) by (apply hin; simpl; auto).
          rewrite (proj2 (proj2 HM)) by auto. cbn [bind oks].
          destruct (nltb (D i m) (D i x)); [exists m, x; cbn [fst snd]; auto|].
          destruct (nltb (D i m) (D i y)); [exists x, m|exists x, y]; cbn [fst snd]; auto. }
      destruct (foldM _ _ _); [exact ho|exact I].
  Qed.

  Definition ratio_ok (o : nat) (meds : list nat) (s : f64) : Prop :=
    within 0 1 s /\ close u (near_ratio v o meds) s.

  (** the contribution of an object is the rounded ratio *)
  Lemma ms_step_float meds samples loss sil i : (2 <= length meds)%nat -> (forall m, In m meds -> (m < n)%nat) -> (i < n)%nat ->
    (samples = true -> (i < length sil)%nat /\ nth i sil lzero = lone) ->
    oks (ms_step (Lt := f64) M meds samples (loss, sil) i) (fun p =>
      (fst p = loss /\ near_ratio v i meds == 0 \/ exists s, ratio_ok i meds s /\ fst p = SFadd fprec femax loss s) /\
      length (snd p) = length sil /\
      (samples = false -> snd p = sil) /\
      (forall j, j <> i -> nth j (snd p) lzero = nth j sil lzero) /\
      (samples = true -> within 0 1 (nth i (snd p) lzero) /\ close (u + u) (1 - near_ratio v i meds) (nth i (snd p) lzero))).
  Proof.
    intros hk hin hi hs. unfold ms_step.
    pose proof (ms_best_ok HD meds hk hin hi) as hb. pose proof (ms_best_in meds hin hi) as hbi.
    apply oks_inv in hb as (best & eb & hb). rewrite eb in *. cbn [bind wk] in *.
    pose proof (best_two_pos HD hin hi hb) as hp. pose proof (best_two_ratio hb) as hr.
    destruct hb as (k1 & k2 & _).
    assert (hx : (f64_finite (lfrom (fst best)) /\ f64_val (lfrom (fst best)) == vN (fst best)) /\
                 (f64_finite (lfrom (snd best)) /\ f64_val (lfrom (snd best)) == vN (snd best))).
    { destruct hbi as (x & y & hx & hy & -> & ->). split; apply HE; auto. }
    destruct hx as [[o1 e1] [o2 e2]]. rewrite <- e1, <- e2 in hp, hr.
    assert (hu : 0 < u) by reflexivity.
    destruct (nis_zero (fst best)) eqn:ez; cbn [negb].
    - apply nis_zero_spec in ez; auto. rewrite <- e1 in ez.
      assert (e0 : near_ratio v i meds == 0) by (rewrite hr, ez; unfold Qdiv; lra).
      cbn [oks fst snd]. split; [auto|]. split; [auto|]. split; [auto|]. split; [auto|].
      intros h. destruct (hs h) as [_ ->]. destruct one_val as [w1 w2]. split; [split; [exact w1|lra]|].
      unfold close. rewrite w2, e0. lra.
    - assert (hnz : ~ f64_val (lfrom (fst best)) == 0).
      { intros c. assert (nis_zero (fst best) = true); [|congruence]. apply nis_zero_spec; auto. rewrite <- e1. exact c. }
      set (b1 := lfrom (fst best)) in *. set (b2 := lfrom (snd best)) in *.
      assert (hq : ratio_ok i meds (SFdiv fprec femax b1 b2)).
      { assert (h0 : 0 < f64_val b2) by lra.
        assert (q0 : 0 <= f64_val b1 / f64_val b2) by (apply Qle_shift_div_l; [exact h0|lra]).
        assert (q1 : f64_val b1 / f64_val b2 <= 1) by (apply Qle_shift_div_r; [exact h0|lra]).
        assert (hB : 1 <= 2 ^ 1023) by (apply Qlt_le_weak; reflexivity).
        pose proof (@div_rounds b1 b2 o1 o2 ltac:(lra) ltac:(lra) ltac:(lra)) as hd.
        split.
        - apply rounds_within with (f64_val b1 / f64_val b2); auto using repr_0, repr_1.
        - assert (h := rounds_abs (B := 1) hd ltac:(lra) ltac:(lra) ltac:(apply Qlt_le_weak; reflexivity)).
          unfold close. rewrite hr. lra. }
      change (ldiv b1 b2) with (SFdiv fprec femax b1 b2).
      destruct samples.
      + destruct (hs eq_refl) as [hl _]. rewrite upd_ok by auto. cbn [bind oks fst snd].
        split; [right; eexists; split; [exact hq|reflexivity]|]. split; [apply length_set_nth|]. split; [discriminate|].
        split; [intros j hj; apply nth_set_nth_neq; auto|].
        intros _. rewrite nth_set_nth_eq by auto. destruct hq as [q1 q2]. apply one_minus; auto.
      + cbn [bind oks fst snd]. split; [right; eexists; split; [exact hq|reflexivity]|].
        split; [auto|]. split; [auto|]. split; [auto|discriminate].
  Qed.

  (** the error of a sum of t ratios *)
  Definition sum_err (t : nat) : Q := u * (cnt t * (cnt t + 3) / 2).

  Lemma sum_err_S t : sum_err (S t) == sum_err t + u + u * cnt (S t).
  Proof. unfold sum_err. rewrite cnt_S. field. Qed.

  Lemma add_close t loss s x r : fits53 (S t) -> within 0 (cnt t) loss -> close (sum_err t) x loss ->
    within 0 1 s -> close u r s ->
    within 0 (cnt (S t)) (SFadd fprec femax loss s) /\ close (sum_err (S t)) (x + r) (SFadd fprec femax loss s).
  Proof.
    intros hf hw [c1 c2] hs [d1 d2].
    assert (hw' : within 0 (cnt (S t)) (SFadd fprec femax loss s)).
    { assert (e : forall q, q * 2 ^ 0 == q) by (intros q; change (2 ^ 0) with 1; ring).
      assert (hw0 : within 0 (cnt t * 2 ^ 0) loss) by (eapply within_ext; [| |exact hw]; [reflexivity|symmetry; apply e]).
      pose proof (@add_within_pos t 0 loss s hf ltac:(lia) hw0 hs) as h.
      eapply within_ext; [| |exact h]; [reflexivity|apply e]. }
    split; [exact hw'|].
    destruct hw as (w1 & w2 & w3). destruct hs as (s1 & s2 & s3).
    pose proof (@cnt_big (S t) 0 hf ltac:(lia)) as hb. change (2 ^ 0) with 1 in hb. rewrite cnt_S in hb.
    pose proof big2 as hB. assert (hp : 0 < 2 ^ 1022) by reflexivity.
    assert (hr : rounds (f64_val loss + f64_val s) (SFadd fprec femax loss s)) by (apply add_rounds; auto; lra).
    pose proof (cnt_pos t) as pt.
    assert (hm : 2 ^ (-1022) <= cnt (S t)).
    { rewrite cnt_S. assert (2 ^ (-1022) <= 1) by (apply Qlt_le_weak; reflexivity). lra. }
    assert (hle : f64_val loss + f64_val s <= cnt (S t)) by (rewrite cnt_S; lra).
    assert (h := rounds_abs (B := cnt (S t)) hr ltac:(lra) hle hm).
    unfold close. pose proof (sum_err_S t) as he. lra.
  Qed.

  (** the final steps: divide by n and subtract from one *)
  Lemma msil_end loss x : (1 <= n)%nat -> (N.of_nat n <= 4294967295)%N -> within 0 (cnt n) loss -> close (sum_err n) x loss ->
    within 0 1 (lsub lone (ldiv loss (lfrom_u32 (as_u32 n)))) /\
    close ((cnt n + 7) * 2 ^ (-54)) (1 - x / cnt n) (lsub lone (ldiv loss (lfrom_u32 (as_u32 n)))).
  Proof.
    intros hn hu (w1 & w2 & w3) [c1 c2]. rewrite as_u32_small by exact hu. cbn [lfrom_u32 ldiv NumL_f64]. rewrite nat_N_Z.
    destruct (@of_nat_val n) as [f1 f2]; [apply fits_u32; exact hu|].
    assert (hp : 0 < cnt n) by (unfold cnt; change 0 with (inject_Z 0); rewrite <- Zlt_Qlt; lia).
    set (N := f64_of_Z (Z.of_nat n)) in *.
    assert (hB : 1 <= 2 ^ 1023) by (apply Qlt_le_weak; reflexivity).
    assert (q0 : 0 <= f64_val loss / f64_val N) by (apply Qle_shift_div_l; [rewrite f2; exact hp|lra]).
    assert (q1 : f64_val loss / f64_val N <= 1) by (apply Qle_shift_div_r; [rewrite f2; exact hp|lra]).
    pose proof (@div_rounds loss N w1 f1 ltac:(rewrite f2; lra) ltac:(lra) ltac:(lra)) as hd.
    assert (hw : within 0 1 (SFdiv fprec femax loss N)).
    { apply rounds_within with (f64_val loss / f64_val N); auto using repr_0, repr_1. }
    assert (hc : close (u * ((cnt n + 3) / 2) + u) (x / cnt n) (SFdiv fprec femax loss N)).
    { assert (h := rounds_abs (B := 1) hd ltac:(lra) ltac:(lra) ltac:(apply Qlt_le_weak; reflexivity)).
      assert (e1 : f64_val loss / f64_val N - x / cnt n == (f64_val loss - x) / cnt n) by (rewrite f2; field; lra).
      assert (b1 : (f64_val loss - x) / cnt n <= u * ((cnt n + 3) / 2)).
      { apply Qle_shift_div_r; [exact hp|]. unfold sum_err in c2.
        assert (e : u * ((cnt n + 3) / 2) * cnt n == u * (cnt n * (cnt n + 3) / 2)) by field. lra. }
      assert (b2 : - (u * ((cnt n + 3) / 2)) <= (f64_val loss - x) / cnt n).
      { apply Qle_shift_div_l; [exact hp|]. unfold sum_err in c1.
        assert (e : u * ((cnt n + 3) / 2) * cnt n == u * (cnt n * (cnt n + 3) / 2)) by field. lra. }
      unfold close. lra. }
    destruct (one_minus hw hc) as [r1 r2]. cbn [lsub NumL_f64] in *. split; [exact r1|].
    assert (e : (cnt n + 7) * 2 ^ (-54) == u * ((cnt n + 3) / 2) + u + u).
    { assert (e2 : 2 ^ (-54) == u * (1 # 2)) by reflexivity. rewrite e2. field. }
    unfold close in *. lra.
  Qed.

  Lemma medoid_silhouette_float meds samples : (2 <= length meds <= n)%nat -> (N.of_nat n <= 4294967295)%N ->
    (forall m, In m meds -> (m < n)%nat) ->
    oks (medoid_silhouette (Lt := f64) M meds samples) (fun p =>
      within 0 1 (fst p) /\ close ((cnt n + 7) * 2 ^ (-54)) (med_sil v n meds) (fst p) /\
      length (snd p) = (if samples then n else 0)%nat /\
      forall i, (i < length (snd p))%nat -> within 0 1 (nth i (snd p) lzero) /\
        close (2 ^ (-52)) (1 - near_ratio v i meds) (nth i (snd p) lzero)).
  Proof.
    intros hk hn hin. destruct HD as [HM _]. unfold medoid_silhouette. rewrite (proj1 (proj2 HM)), (proj1 HM). cbn [bind assertb].
    assert (e1 : (N.of_nat n <=? u32_max)%N = true) by (apply N.leb_le; unfold u32_max; lia).
    rewrite e1. cbn [bind assertb].
    replace (Nat.eqb (length meds) 1) with false by (symmetry; apply Nat.eqb_neq; lia).
    replace (Nat.leb (length meds) n) with true by (symmetry; apply Nat.leb_le; lia). cbn [bind assertb].
    pose proof (fits_u32 _ hn) as hf.
    eapply oks_bind.
    - apply foldM_seq with (I := fun t (p : f64 * list f64) =>
        within 0 (cnt t) (fst p) /\ close (sum_err t) (sumQ (fun o => near_ratio v o meds) (seq 0 t)) (fst p) /\
        length (snd p) = (if samples then n else 0)%nat /\
        forall i, (i < length (snd p))%nat -> if Nat.ltb i t
          then within 0 1 (nth i (snd p) lzero) /\ close (u + u) (1 - near_ratio v i meds) (nth i (snd p) lzero)
          else nth i (snd p) lzero = lone).
      + cbn [fst snd seq sumQ fold_right]. split; [split; [exact I|change (cnt 0) with 0; cbn [lzero NumL_f64 f64_val]; lra]|].
        split; [unfold close, sum_err; change (cnt 0) with 0; cbn [lzero NumL_f64 f64_val]; split; reflexivity || (apply Qle_bool_iff; reflexivity)|].
        split; [apply repeat_length|].
        intros i hi. rewrite repeat_length in hi. cbn [Nat.ltb Nat.leb].
        rewrite nth_indep with (d' := lone) by (rewrite repeat_length; auto). apply nth_repeat.
      + intros i [loss sil] hi (h1 & h2 & h3 & h4). cbn [fst snd] in *.
        eapply oks_mono.
        * apply ms_step_float; auto; [lia|]. intros ->. split; [lia|]. specialize (h4 i ltac:(lia)).
          rewrite Nat.ltb_irrefl in h4. exact h4.
        * intros [loss' sil'] (q1 & q2 & q3 & q4 & q5). cbn [fst snd] in *.
          assert (hfi : fits53 (S i)) by (unfold fits53 in *; lia).
          assert (hl : within 0 (cnt (S i)) loss' /\ close (sum_err (S i)) (sumQ (fun o => near_ratio v o meds) (seq 0 (S i))) loss').
          { rewrite seq_S, plus_O_n. destruct q1 as [[-> q1]|(s & [s1 s2] & ->)].
            - split; [eapply within_sub; [| |exact h1]; [lra|apply cnt_le; lia]|].
              assert (hu : 0 < u) by reflexivity. pose proof (sum_err_S i) as he. pose proof (cnt_pos (S i)) as hp.
              assert (0 <= u * cnt (S i)) by (apply Qmult_le_0_compat; lra).
              unfold close in *. rewrite SpecFacts.sumQ_app. cbn [sumQ fold_right]. rewrite q1. lra.
            - destruct (add_close hfi h1 h2 s1 s2) as [a1 a2]. split; [exact a1|].
              unfold close in *. rewrite SpecFacts.sumQ_app. cbn [sumQ fold_right]. lra. }
          split; [apply hl|]. split; [apply hl|]. split; [lia|].
          intros j hj. destruct (Nat.eq_dec j i) as [->|hji].
          -- destruct samples; [|simpl in *; lia].
             replace (Nat.ltb i (S i)) with true by (symmetry; apply Nat.ltb_lt; lia). apply q5. reflexivity.
          -- rewrite q4 by auto. specialize (h4 j ltac:(lia)). destruct (Nat.ltb j i) eqn:e2.
             ++ apply Nat.ltb_lt in e2. replace (Nat.ltb j (S i)) with true by (symmetry; apply Nat.ltb_lt; lia). exact h4.
             ++ apply Nat.ltb_ge in e2. replace (Nat.ltb j (S i)) with false by (symmetry; apply Nat.ltb_ge; lia). exact h4.
    - intros [loss sil] (h1 & h2 & h3 & h4). cbn [fst snd] in *. cbn [oks fst snd].
      destruct (msil_end ltac:(lia) hn h1 h2) as [r1 r2].
      split; [exact r1|]. split; [exact r2|]. split; [exact h3|].
      intros i hi. specialize (h4 i hi). replace (Nat.ltb i n) with true in h4.
      + destruct h4 as [a1 a2]. split; [exact a1|]. assert (e : u + u == 2 ^ (-52)) by reflexivity.
        unfold close in *. lra.
      + symmetry. apply Nat.ltb_lt. destruct samples; lia.
  Qed.
End MedSil.

(** adding up ratios *)
Lemma ratio_fold (g : nat -> f64) (q : nat -> Q) (is : list nat) : forall t a x,
  fits53 (t + length is) -> within 0 (cnt t) a -> close (sum_err t) x a ->
  (forall i, In i is -> within 0 1 (g i) /\ close (2 ^ (-53)) (q i) (g i)) ->
  within 0 (cnt (t + length is)) (fold_left ladd (map g is) a) /\
  close (sum_err (t + length is)) (x + sumQ q is) (fold_left ladd (map g is) a).
Proof.
  induction is as [|i is IH]; intros t a x hf hw hc h; cbn [length map fold_left sumQ fold_right].
  - rewrite Nat.add_0_r. split; [exact hw|]. eapply close_ext; [| |exact hc]; [reflexivity|ring].
  - cbn [length] in hf. replace (t + S (length is))%nat with (S t + length is)%nat in * by lia.
    destruct (h i (or_introl eq_refl)) as [h1 h2].
    destruct (@add_close t a (g i) x (q i) ltac:(unfold fits53 in *; lia) hw hc h1 h2) as [a1 a2].
    destruct (IH (S t) (SFadd fprec femax a (g i)) (x + q i) hf a1 a2) as [b1 b2]; [intros; apply h; right; auto|].
    split; [exact b1|]. eapply close_ext; [| |exact b2]; [reflexivity|]. change (fold_right _ 0 is) with (sumQ q is). ring.
Qed.

Lemma ratio_sum (g : nat -> f64) (q : nat -> Q) n : (1 <= n)%nat -> fits53 n ->
  (forall i, (i < n)%nat -> within 0 1 (g i) /\ close (2 ^ (-53)) (q i) (g i)) ->
  exists s, reduce ladd (map g (seq 0 n)) = Some s /\ within 0 (cnt n) s /\ close (sum_err n) (sumQ q (seq 0 n)) s.
Proof.
  intros hn hf h. destruct n as [|n]; [lia|]. cbn [seq map reduce]. eexists. split; [reflexivity|].
  destruct (h 0%nat ltac:(lia)) as [h1 h2].
  destruct (@ratio_fold g q (seq 1 n) 1 (g 0%nat) (q 0%nat)) as [b1 b2].
  - rewrite seq_length. exact hf.
  - exact h1.
  - eapply close_le; [|exact h2]. unfold sum_err. change (cnt 1) with 1. apply Qle_bool_iff. reflexivity.
  - intros i hi. apply in_seq in hi. apply h. lia.
  - rewrite seq_length in *. split; [exact b1|]. eapply close_ext; [| |exact b2]; [reflexivity|].
    cbn [sumQ fold_right]. reflexivity.
Qed.

(** a ratio of two entries *)
Lemma ratio_within (a b : f64) : f64_finite a -> f64_finite b -> 0 <= f64_val a -> 0 < f64_val b -> f64_val a <= f64_val b ->
  within 0 1 (SFdiv fprec femax a b) /\ close (2 ^ (-53)) (f64_val a / f64_val b) (SFdiv fprec femax a b).
Proof.
  intros fa fb h1 h2 h3.
  assert (q0 : 0 <= f64_val a / f64_val b) by (apply Qle_shift_div_l; [exact h2|lra]).
  assert (q1 : f64_val a / f64_val b <= 1) by (apply Qle_shift_div_r; [exact h2|lra]).
  assert (hB : 1 <= 2 ^ 1023) by (apply Qlt_le_weak; reflexivity).
  pose proof (@div_rounds a b fa fb ltac:(lra) ltac:(lra) ltac:(lra)) as hd. split.
  - apply rounds_within with (f64_val a / f64_val b); auto using repr_0, repr_1.
  - assert (h := rounds_abs (B := 1) hd ltac:(lra) ltac:(lra) ltac:(apply Qlt_le_weak; reflexivity)).
    unfold close. lra.
Qed.
