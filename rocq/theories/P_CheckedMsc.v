(** P_CheckedMsc.v -- property C83: fastermsc, fastmsc and dynmsc in builds with overflow checks.  These functions add
    two dissimilarities.  With integer dissimilarities of [w] bits a build with overflow checks either panics with
    an overflow, or does exactly what the release build does and what it would do with unbounded integers.
    Every theorem is followed by a concrete input which meets its hypotheses. *)
From Coq Require Import ZArith QArith Lia.
From Coq.Floats Require Import SpecFloat.
From Verif Require Import Base Num M_Mat M_Util M_Fasterpam M_Silhouette M_Msc M_Pammedsil M_Dynmsc M_CheckedMsc Inst Hoare
  Spec Laws FloatFacts FloatSil FloatMono FloatMsc Bounded BoundedMain RelN Ex P_Fasterpam P_Pam P_Bounded P_Types P_Checked P_Rounding P_FloatMsc P_FloatBuildMsc.
Open Scope nat_scope.

(** [+] of [i8], [i32] ... and of [u8], [u32] ... in a build with overflow checks *)
Definition plus_i (w : Z) (a b : mint w) : res (mint w) := in_range w (ival a + ival b).
Definition plus_u (w : Z) (a b : muint w) : res (muint w) :=
  let z := (uval a + uval b)%Z in if ((0 <=? z) && (z <? 2 ^ w))%Z then Ok (UInt z) else Panic P_overflow.

(** the build with overflow checks on [M] compared with the release build on [M'] *)
Definition checked_runs {A B} (Lt : Type) `{NumN A} `{NumN B} `{NumL Lt} `{FromN A Lt} `{FromN B Lt}
  (Q : forall T, res T -> res T -> Prop) (plus : A -> A -> res A) (M : Mat A) (M' : Mat B) : Prop :=
  (forall med maxiter, Q _ (fastermsc_c (Lt := Lt) plus M med maxiter) (fastermsc M' med maxiter)) /\
  (forall med maxiter, Q _ (fastmsc_c (Lt := Lt) plus M med maxiter) (fastmsc M' med maxiter)) /\
  (forall med mink maxiter, Q _ (dynmsc_c (Lt := Lt) plus M med mink maxiter) (dynmsc M' med mink maxiter)).
Definition or_overflow T (x y : res T) : Prop := x = Panic P_overflow \/ x = y.
Definition equal T (x y : res T) : Prop := x = y.

Section General.
  Context {A B Lt : Type} `{HA : NumN A} `{HB : NumN B} `{HL : NumL Lt} `{HFA : FromN A Lt} `{HFB : FromN B Lt}.
  Variable f : A -> B.
  Variable ok : A -> Prop.
  Variable may : Prop.
  Variable plus : A -> A -> res A.
  Variable M : Mat A.
  Variable M' : Mat B.
  Hypothesis Hlen : mlen M' = mlen M.
  Hypothesis Hsq : msquare M' = msquare M.
  Hypothesis Hget : forall x y, mget M' x y = (d <- mget M x y ;; Ok (f d)).
  Hypothesis Hok : forall x y d, mget M x y = Ok d -> ok d.
  Hypothesis H0 : ok nzero /\ f nzero = nzero.
  Hypothesis Hlt : forall a b, ok a -> ok b -> nltb a b = nltb (f a) (f b).
  Hypothesis Heq : forall a b, ok a -> ok b -> neqb a b = neqb (f a) (f b).
  Hypothesis Hz : forall a, nis_zero a = nis_zero (f a).
  Hypothesis Hfrom : forall a, lfrom a = lfrom (f a).
  Hypothesis Hplus : forall a b, ok a -> ok b ->
    may /\ plus a b = Panic P_overflow \/ exists s, plus a b = Ok s /\ f s = nadd (f a) (f b).

  Lemma checked_same (Q : forall T, res T -> res T -> Prop) :
    (forall T (x y : res T), may /\ x = Panic P_overflow \/ x = y -> Q T x y) -> checked_runs Lt Q plus M M'.
  Proof.
    intros hQ. set (R := fun (a : A) (b : B) => ok a /\ b = f a).
    assert (r0 : R nzero nzero) by (destruct H0; split; auto).
    assert (r1 : forall a a' b b', R a a' -> R b b' -> nltb a b = nltb a' b') by (intros a a' b b' [? ->] [? ->]; auto).
    assert (r2 : forall a a' b b', R a a' -> R b b' -> neqb a b = neqb a' b') by (intros a a' b b' [? ->] [? ->]; auto).
    assert (r3 : forall a a', R a a' -> nis_zero a = nis_zero a') by (intros a a' [? ->]; auto).
    assert (r4 : forall a a', R a a' -> lfrom a = lfrom a') by (intros a a' [? ->]; auto).
    assert (r5 : forall a a' b b', R a a' -> R b b' -> may /\ plus a b = Panic P_overflow \/
      exists s, plus a b = Ok s /\ nis_zero s = nis_zero (nadd a' b') /\ lfrom s = lfrom (nadd a' b')).
    { intros a a' b b' [ha ->] [hb ->]. destruct (Hplus a b ha hb) as [h|(s & e & <-)]; [left; exact h|right; exists s; auto]. }
    assert (rg : forall x y, rr R (mget M x y) (mget M' x y)).
    { intros x y. rewrite Hget. specialize (Hok x y). destruct (mget M x y); cbn [bind rr]; [split; auto|reflexivity]. }
    split; [|split]; intros; apply hQ, ro_eq.
    - apply (o_fastermsc R); auto.
    - apply (o_fastmsc R); auto.
    - apply (o_dynmsc R); auto.
  Qed.
End General.

Lemma in_range_cases w z : (1 <= w)%Z -> in_range w z = Panic P_overflow \/ in_range w z = Ok (MInt z) /\ wrap w z = z.
Proof.
  intros hw. unfold in_range. destruct (_ && _)%bool eqn:e; [right; split; [reflexivity|]|left; reflexivity].
  apply andb_true_iff in e as [e1 e2]. apply Z.leb_le in e1, e2.
  unfold wrap, imax in *. assert (h : (2 ^ w = 2 * 2 ^ (w - 1))%Z) by (rewrite <- Z.pow_succ_r by lia; f_equal; lia).
  rewrite Z.mod_small; lia.
Qed.
Lemma plus_u_cases w (a b : muint w) : plus_u w a b = Panic P_overflow \/
  plus_u w a b = Ok (UInt (uval a + uval b)) /\ ((uval a + uval b) mod 2 ^ w = uval a + uval b)%Z.
Proof.
  unfold plus_u. cbv zeta. destruct (_ && _)%bool eqn:e; [right; split; [reflexivity|]|left; reflexivity].
  apply andb_true_iff in e as [e1 e2]. apply Z.leb_le in e1. apply Z.ltb_lt in e2. apply Z.mod_small. lia.
Qed.


Lemma bind_id T (m : res T) : m = (d <- m ;; Ok d).
Proof. destruct m; reflexivity. Qed.
Lemma runs_or_overflow T (x y : res T) : True /\ x = Panic P_overflow \/ x = y -> or_overflow T x y.
Proof. intros [[_ h]|h]; [left; exact h|right; exact h]. Qed.
Lemma runs_equal T (x y : res T) : False /\ x = Panic P_overflow \/ x = y -> equal T x y.
Proof. intros [[[] _]|h]. exact h. Qed.

(** C83.  Whatever the inputs are: a build with overflow checks panics with an overflow, or does what the release build does
    and what the function does on unbounded integers; for every loss type. *)
Theorem C83_signed {Lt : Type} `{HL : NumL Lt} `{HF : FromN Z Lt} (w : Z) (M : Mat (mint w)) : (1 <= w)%Z ->
  checked_runs Lt or_overflow (plus_i w) M M /\ checked_runs Lt or_overflow (plus_i w) M (mat_map ival M).
Proof.
  intros hw. split.
  - apply checked_same with (f := fun d => d) (ok := fun _ => True) (may := True); auto using bind_id, runs_or_overflow.
    intros a b _ _. unfold plus_i. destruct (in_range_cases w (ival a + ival b) hw) as [e|[e1 e2]]; [left; auto|right].
    exists (MInt (ival a + ival b)). split; [exact e1|]. cbn [nadd NumN_mint]. rewrite e2. reflexivity.
  - apply checked_same with (f := ival) (ok := fun _ => True) (may := True); auto using runs_or_overflow.
    intros a b _ _. unfold plus_i. destruct (in_range_cases w (ival a + ival b) hw) as [e|[e1 e2]]; [left; auto|right].
    exists (MInt (ival a + ival b)). auto.
Qed.
Print Assumptions C83_signed.

Theorem C83_unsigned {Lt : Type} `{HL : NumL Lt} `{HF : FromN Z Lt} (w : Z) (M : Mat (muint w)) :
  checked_runs Lt or_overflow (plus_u w) M M /\ checked_runs Lt or_overflow (plus_u w) M (mat_map uval M).
Proof.
  split.
  - apply checked_same with (f := fun d => d) (ok := fun _ => True) (may := True); auto using bind_id, runs_or_overflow.
    intros a b _ _. destruct (plus_u_cases w a b) as [e|[e1 e2]]; [left; auto|right].
    exists (UInt (uval a + uval b)). split; [exact e1|]. cbn [nadd NumN_muint]. rewrite e2. reflexivity.
  - apply checked_same with (f := uval) (ok := fun _ => True) (may := True); auto using runs_or_overflow.
    intros a b _ _. destruct (plus_u_cases w a b) as [e|[e1 e2]]; [left; auto|right].
    exists (UInt (uval a + uval b)). auto.
Qed.
Print Assumptions C83_unsigned.

(** If the entries are within half of the range, it does not panic with an overflow. *)
Theorem C83_signed_fits {Lt : Type} `{HL : NumL Lt} `{HF : FromN Z Lt} (w : Z) (M : Mat (mint w)) :
  (1 <= w)%Z -> (forall x y d, mget M x y = Ok d -> (- 2 ^ (w - 1) <= 2 * ival d <= imax w)%Z) ->
  checked_runs Lt equal (plus_i w) M M /\ checked_runs Lt equal (plus_i w) M (mat_map ival M).
Proof.
  intros hw h.
  assert (h0 : (- 2 ^ (w - 1) <= 2 * ival (nzero : mint w) <= imax w)%Z).
  { cbn [nzero NumN_mint ival]. unfold imax. pose proof (Z.pow_pos_nonneg 2 (w - 1)). lia. }
  assert (hp : forall a b : mint w, (- 2 ^ (w - 1) <= 2 * ival a <= imax w)%Z -> (- 2 ^ (w - 1) <= 2 * ival b <= imax w)%Z ->
    plus_i w a b = Ok (MInt (ival a + ival b)) /\ wrap w (ival a + ival b) = (ival a + ival b)%Z).
  { intros a b ha hb. unfold plus_i. destruct (in_range_cases w (ival a + ival b) hw) as [e|e]; [exfalso|exact e].
    unfold in_range in e. destruct (_ && _)%bool eqn:eb; [discriminate|].
    apply andb_false_iff in eb as [eb|eb]; apply Z.leb_gt in eb; lia. }
  split.
  - apply checked_same with (f := fun d => d) (ok := fun d : mint w => (- 2 ^ (w - 1) <= 2 * ival d <= imax w)%Z) (may := False);
      auto using bind_id, runs_equal.
    intros a b ha hb. right. destruct (hp a b ha hb) as [e1 e2].
    exists (MInt (ival a + ival b)). split; [exact e1|]. cbn [nadd NumN_mint]. rewrite e2. reflexivity.
  - apply checked_same with (f := ival) (ok := fun d : mint w => (- 2 ^ (w - 1) <= 2 * ival d <= imax w)%Z) (may := False);
      auto using runs_equal.
    intros a b ha hb. right. destruct (hp a b ha hb) as [e1 e2]. exists (MInt (ival a + ival b)). auto.
Qed.
Print Assumptions C83_signed_fits.

Theorem C83_unsigned_fits {Lt : Type} `{HL : NumL Lt} `{HF : FromN Z Lt} (w : Z) (M : Mat (muint w)) :
  (0 <= w)%Z -> (forall x y d, mget M x y = Ok d -> (0 <= uval d /\ 2 * uval d < 2 ^ w)%Z) ->
  checked_runs Lt equal (plus_u w) M M /\ checked_runs Lt equal (plus_u w) M (mat_map uval M).
Proof.
  intros hw h.
  assert (h0 : (0 <= uval (nzero : muint w) /\ 2 * uval (nzero : muint w) < 2 ^ w)%Z).
  { cbn [nzero NumN_muint uval]. pose proof (Z.pow_pos_nonneg 2 w). lia. }
  assert (hp : forall a b : muint w, (0 <= uval a /\ 2 * uval a < 2 ^ w)%Z -> (0 <= uval b /\ 2 * uval b < 2 ^ w)%Z ->
    plus_u w a b = Ok (UInt (uval a + uval b)) /\ ((uval a + uval b) mod 2 ^ w = uval a + uval b)%Z).
  { intros a b ha hb. destruct (plus_u_cases w a b) as [e|e]; [exfalso|exact e].
    unfold plus_u in e. cbv zeta in e. destruct (_ && _)%bool eqn:eb; [discriminate|].
    apply andb_false_iff in eb as [eb|eb]; [apply Z.leb_gt in eb|apply Z.ltb_ge in eb]; lia. }
  split.
  - apply checked_same with (f := fun d => d) (ok := fun d : muint w => (0 <= uval d /\ 2 * uval d < 2 ^ w)%Z) (may := False);
      auto using bind_id, runs_equal.
    intros a b ha hb. right. destruct (hp a b ha hb) as [e1 e2].
    exists (UInt (uval a + uval b)). split; [exact e1|]. cbn [nadd NumN_muint]. rewrite e2. reflexivity.
  - apply checked_same with (f := uval) (ok := fun d : muint w => (0 <= uval d /\ 2 * uval d < 2 ^ w)%Z) (may := False);
      auto using runs_equal.
    intros a b ha hb. right. destruct (hp a b ha hb) as [e1 e2]. exists (UInt (uval a + uval b)). auto.
Qed.
Print Assumptions C83_unsigned_fits.

(** A clustering returned by a build with overflow checks can be trusted: it is not worse than the given medoids, up to rounding,
    and the reported medoid silhouette is right up to rounding.  (The release build may return worse ones: C70_overflow_refuted.) *)
Theorem C83_returned (w : Z) (M : Mat (mint w)) n D med maxiter :
  (1 <= w <= 53)%Z -> diss_matrix (mat_map ival M) n D -> (forall x y, x < n -> y < n -> (D x y <= imax w)%Z) ->
  sizes n (length med) -> medoids n (length med) med -> 2 <= length med ->
  (forall r : pam_result f64, fastermsc_c (plus_i w) M med maxiter = Ok r ->
    (med_sil (vals D) n med <= med_sil (vals D) n (r_med r) + inject_Z (Z.of_nat n + 1) * sil_error n)%Q /\
    off_by (sil_error n) (med_sil (vals D) n (r_med r)) (r_loss r)) /\
  (forall r : pam_result f64, fastmsc_c (plus_i w) M med maxiter = Ok r ->
    (med_sil (vals D) n med <= med_sil (vals D) n (r_med r) + 2 * sil_error n)%Q /\
    off_by (2 * sil_error n) (med_sil (vals D) n (r_med r)) (r_loss r) /\
    (r_iter r < maxiter -> stops_sil (vals D) n (length med) (sil_error n) r)) /\
  (forall p mink, fastermsc_c (Lt := f64) (plus_i w) M med maxiter = Panic p \/ fastmsc_c (Lt := f64) (plus_i w) M med maxiter = Panic p \/
    dynmsc_c (Lt := f64) (plus_i w) M med mink maxiter = Panic p -> p = P_overflow).
Proof.
  intros hw hd hmax hs hm hk.
  assert (h52 : forall x y, x < n -> y < n -> (0 <= D x y <= 2 ^ 52)%Z).
  { intros x y hx hy. destruct (proj2 (diss_nonneg _ _ _ hd) x y hx hy) as [_ h0]. split.
    - unfold vals in h0. cbn [vN OrdLaws_Z] in h0. change 0%Q with (inject_Z 0) in h0. rewrite <- Zle_Qle in h0. exact h0.
    - apply Z.le_trans with (imax w); [apply hmax; auto|]. unfold imax.
      assert (2 ^ (w - 1) <= 2 ^ 52)%Z by (apply Z.pow_le_mono_r; lia). lia. }
  assert (he : exact_from n D).
  { apply int_exact_from. intros x y hx hy. specialize (h52 x y hx hy). rewrite Z.abs_eq by lia.
    apply Z.le_trans with (2 ^ 52)%Z; [lia|]. vm_compute. discriminate. }
  assert (ha : adds_near n D) by (apply int_adds_near; exact h52).
  destruct (C83_signed (Lt := f64) w M ltac:(lia)) as [_ (c1 & c2 & c3)]. specialize (c1 med maxiter). specialize (c2 med maxiter).
  destruct (C63_fastermsc _ n D med maxiter hd he ha hs hm hk) as (r1 & e1 & g1 & g2 & _).
  destruct (C63_fastmsc_pammedsil _ n D med maxiter hd he ha hs hm hk) as (r2 & r3 & e2 & _ & g3).
  specialize (g3 r2 (or_introl eq_refl)). rewrite e1 in c1. rewrite e2 in c2.
  split; [|split].
  - intros r e. rewrite e in c1. destruct c1 as [c1|c1]; [discriminate|]. injection c1 as ->. auto.
  - intros r e. rewrite e in c2. destruct c2 as [c2|c2]; [discriminate|]. injection c2 as ->. exact g3.
  - intros p mink [e|[e|e]]; [rewrite e in c1; destruct c1 as [c1|c1]; congruence|rewrite e in c2; destruct c2 as [c2|c2]; congruence|].
    specialize (c3 med mink maxiter). destruct (C65_dynmsc _ n D med mink maxiter hd he hs hm hk) as (r4 & e4 & _).
    rewrite e4, e in c3. destruct c3 as [c3|c3]; congruence.
Qed.
Print Assumptions C83_returned.

(** Without the condition it may happen: i32 entries below 2^31; PAMMEDSIL, which adds no dissimilarities, returns. *)
Theorem C83_overflow_refuted : exists (M : Mat (mint 32)) n D med,
  diss_matrix (mat_map ival M) n D /\ (forall x y d, mget M x y = Ok d -> (0 <= ival d <= imax 32)%Z) /\
  sizes n (length med) /\ medoids n (length med) med /\
  fastermsc_c (Lt := f64) (plus_i 32) M med 10 = Panic P_overflow /\ fastmsc_c (Lt := f64) (plus_i 32) M med 10 = Panic P_overflow /\
  dynmsc_c (Lt := f64) (plus_i 32) M med 2 10 = Panic P_overflow /\
  exists r : pam_result f64, pammedsil_swap M med 10 = Ok r.
Proof.
  exists mi32, 5, (entries rows_i32), [0; 1; 2]. split.
  { destruct (@rows_diss 5 rows_i32 ltac:(lia) eq_refl) as (h1 & h2 & h3). split; [|split; [exact h2|exact h3]].
    split; [reflexivity|]. split; [reflexivity|].
    intros x y hx hy. do 5 (destruct x; [do 5 (destruct y; [reflexivity|]); lia|]). lia. }
  split.
  { intros x y d e. apply (rows_get _ (fun d : mint 32 => (0 <=? ival d)%Z && (ival d <=? imax 32)%Z)) in e; [|reflexivity].
    apply andb_true_iff in e as [h1 h2]. apply Z.leb_le in h1, h2. auto. }
  split; [exact s53|]. split; [exact k53|].
  split; [vm_compute; reflexivity|]. split; [vm_compute; reflexivity|]. split; [vm_compute; reflexivity|].
  eexists. vm_compute. reflexivity.
Qed.
Print Assumptions C83_overflow_refuted.

(** concrete cases *)
Definition C83_case_signed := C83_signed (Lt := f64) 32 mi32 ltac:(lia).
Definition C83_case_unsigned := C83_unsigned (Lt := f64) 8 mu8.
Lemma mi8_half x y d : mget mi8 x y = Ok d -> (- 2 ^ (8 - 1) <= 2 * ival d <= imax 8)%Z.
Proof. intros e. pose proof (mi8_small x y d e) as h. revert h. vm_compute imax. change (2 ^ (8 - 1))%Z with 128%Z. lia. Qed.
Definition C83_case_signed_fits := C83_signed_fits (Lt := f64) 8 mi8 ltac:(lia) mi8_half.
Definition C83_case_unsigned_fits := C83_unsigned_fits (Lt := f64) 8 mu8 ltac:(lia) mu8_small.
Lemma d6_imax x y : x < 6 -> y < 6 -> (d6 x y <= imax 8)%Z.
Proof. intros hx hy. pose proof (d6_max x y hx hy) as h. revert h. vm_compute imax. lia. Qed.
Definition C83_case_returned := C83_returned 8 mi6 6 d6 [0; 1; 3] 10 ltac:(lia) mi6_diss d6_imax s63 k63 (le_S _ _ (le_n 2)).
Example C83_case_runs : exists r : pam_result f64, fastermsc_c (plus_i 8) mi8 [0; 1; 2] 10 = Ok r /\ 0 < r_swaps r.
Proof. eexists. split; [vm_compute; reflexivity|]. vm_compute. lia. Qed.
