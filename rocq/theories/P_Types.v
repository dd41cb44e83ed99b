(** P_Types.v -- property C70: machine types for the dissimilarities.  All functions except fastermsc, fastmsc
    and dynmsc only compare dissimilarities and convert them to the loss type, so that they give exactly the
    same on machine integers of any width as on unbounded integers, and on [f32] as on the matrix
    converted to [f64].  The three others add two dissimilarities: they need half of the range. *)
From Coq Require Import ZArith QArith Qpower Lqa Lia.
From Coq.Floats Require Import SpecFloat.
From Verif Require Import Base Num M_Mat M_Util M_Fasterpam M_Pam M_Alternating M_ParFasterpam M_Silhouette M_Msc
  M_Pammedsil M_Pamsil M_Dynmsc Inst Hoare Spec Laws FloatFacts ParFacts Bounded BoundedMain Float32 RelN Ex
  P_Fasterpam P_Pam P_Bounded P_Float32.
Open Scope nat_scope.

(** ** machine integers as dissimilarities: [w] bits, signed ([i8], [i32] ...) or unsigned; the addition
    wraps around (release builds; debug builds panic instead) *)
Global Instance NumN_mint w : NumN (mint w) := {|
  nzero := MInt 0; nadd := fun a b => MInt (wrap w (ival a + ival b));
  nltb := fun a b => (ival a <? ival b)%Z; neqb := fun a b => (ival a =? ival b)%Z; nis_zero := fun a => (0 =? ival a)%Z
|}.
Record muint (w : Z) := UInt { uval : Z }.
Arguments UInt {w} _.
Arguments uval {w} _.
Global Instance NumN_muint w : NumN (muint w) := {|
  nzero := UInt 0; nadd := fun a b => UInt ((uval a + uval b) mod 2 ^ w);
  nltb := fun a b => (uval a <? uval b)%Z; neqb := fun a b => (uval a =? uval b)%Z; nis_zero := fun a => (0 =? uval a)%Z
|}.
(** [From<i32>] and so on, for the loss types of the model: the value is converted *)
Global Instance FromN_mint w Lt `{FromN Z Lt} : FromN (mint w) Lt := {| lfrom := fun a => lfrom (ival a) |}.
Global Instance FromN_muint w Lt `{FromN Z Lt} : FromN (muint w) Lt := {| lfrom := fun a => lfrom (uval a) |}.

(** the matrix with every entry converted *)
Definition mat_map {A B} (f : A -> B) (M : Mat A) : Mat B := {|
  mlen := mlen M; msquare := msquare M; mget := fun x y => d <- mget M x y ;; Ok (f d) |}.

(** the same results, panics included, of all functions which do not add dissimilarities *)
Definition same_results {A B} (Lt : Type) `{NumN A} `{NumN B} `{NumL Lt} `{FromN A Lt} `{FromN B Lt} (M : Mat A) (M' : Mat B) : Prop :=
  (forall med maxiter, fasterpam (Lt := Lt) M med maxiter = fasterpam M' med maxiter) /\
  (forall order med maxiter, rand_fasterpam (Lt := Lt) M order med maxiter = rand_fasterpam M' order med maxiter) /\
  (forall orc order med maxiter, par_fasterpam (Lt := Lt) M orc order med maxiter = par_fasterpam M' orc order med maxiter) /\
  (forall med maxiter, fastpam1 (Lt := Lt) M med maxiter = fastpam1 M' med maxiter) /\
  (forall med maxiter, pam_swap (Lt := Lt) M med maxiter = pam_swap M' med maxiter) /\
  (forall k, pam_build (Lt := Lt) M k = pam_build M' k) /\
  (forall k maxiter, pam (Lt := Lt) M k maxiter = pam M' k maxiter) /\
  (forall med maxiter, alternating (Lt := Lt) M med maxiter = alternating M' med maxiter) /\
  (forall assi samples, silhouette (Lt := Lt) M assi samples = silhouette M' assi samples) /\
  (forall assi, par_silhouette (Lt := Lt) M assi = par_silhouette M' assi) /\
  (forall meds samples, medoid_silhouette (Lt := Lt) M meds samples = medoid_silhouette M' meds samples) /\
  (forall med maxiter, pammedsil_swap (Lt := Lt) M med maxiter = pammedsil_swap M' med maxiter) /\
  (forall k maxiter, pammedsil (Lt := Lt) M k maxiter = pammedsil M' k maxiter) /\
  (forall med maxiter, pamsil_swap (Lt := Lt) M med maxiter = pamsil_swap M' med maxiter) /\
  (forall k maxiter, pamsil (Lt := Lt) M k maxiter = pamsil M' k maxiter).

(** likewise of the others *)
Definition same_msc {A B} (Lt : Type) `{NumN A} `{NumN B} `{NumL Lt} `{FromN A Lt} `{FromN B Lt} (M : Mat A) (M' : Mat B) : Prop :=
  (forall med maxiter, fastermsc (Lt := Lt) M med maxiter = fastermsc M' med maxiter) /\
  (forall med maxiter, fastmsc (Lt := Lt) M med maxiter = fastmsc M' med maxiter) /\
  (forall med mink maxiter, dynmsc (Lt := Lt) M med mink maxiter = dynmsc M' med mink maxiter).

Section General.
  Context {A B Lt : Type} `{HA : NumN A} `{HB : NumN B} `{HL : NumL Lt} `{HFA : FromN A Lt} `{HFB : FromN B Lt}.
  Variable f : A -> B.
  Variable ok : A -> Prop.
  Variable M : Mat A.
  Hypothesis Hok : forall x y d, mget M x y = Ok d -> ok d.
  Hypothesis H0 : ok nzero /\ f nzero = nzero.
  Hypothesis Hlt : forall a b, ok a -> ok b -> nltb a b = nltb (f a) (f b).
  Hypothesis Heq : forall a b, ok a -> ok b -> neqb a b = neqb (f a) (f b).
  Hypothesis Hz : forall a, ok a -> nis_zero a = nis_zero (f a).
  Hypothesis Hfrom : forall a, ok a -> lfrom a = lfrom (f a).

  Let R (a : A) (b : B) : Prop := ok a /\ b = f a.
  Lemma get_R x y : rr R (mget M x y) (mget (mat_map f M) x y).
  Proof. unfold mat_map. cbn [mget]. specialize (Hok x y). destruct (mget M x y); cbn [bind rr]; [split; auto|reflexivity]. Qed.

  Lemma results_same : same_results Lt M (mat_map f M).
  Proof.
    assert (r0 : R nzero nzero) by (destruct H0; split; auto).
    assert (r1 : forall a a' b b', R a a' -> R b b' -> nltb a b = nltb a' b') by (intros a a' b b' [? ->] [? ->]; auto).
    assert (r2 : forall a a' b b', R a a' -> R b b' -> neqb a b = neqb a' b') by (intros a a' b b' [? ->] [? ->]; auto).
    assert (r3 : forall a a', R a a' -> nis_zero a = nis_zero a') by (intros a a' [? ->]; auto).
    assert (r4 : forall a a', R a a' -> lfrom a = lfrom a') by (intros a a' [? ->]; auto).
    pose proof get_R as rg.
    repeat split; intros.
    - unfold fasterpam. apply (r_fasterpam R); auto.
    - unfold rand_fasterpam. apply (r_fasterpam R); auto.
    - apply (r_par_fasterpam R); auto.
    - apply (r_fastpam1 R); auto.
    - apply (r_pam_swap R); auto.
    - apply (r_pam_build R); auto.
    - apply (r_pam R); auto.
    - apply (r_alternating R); auto.
    - apply (r_silhouette R); auto.
    - apply (r_par_silhouette R); auto.
    - apply (r_medoid_silhouette R); auto.
    - apply (r_pammedsil_swap R); auto.
    - apply (r_pammedsil R); auto.
    - apply (r_pamsil_swap R); auto.
    - apply (r_pamsil R); auto.
  Qed.

  Lemma msc_same : (forall a b, ok a -> ok b -> f (nadd a b) = nadd (f a) (f b) /\ nis_zero (nadd a b) = nis_zero (f (nadd a b)) /\
      lfrom (nadd a b) = lfrom (f (nadd a b))) -> same_msc Lt M (mat_map f M).
  Proof.
    intros Hs.
    assert (r0 : R nzero nzero) by (destruct H0; split; auto).
    assert (r1 : forall a a' b b', R a a' -> R b b' -> nltb a b = nltb a' b') by (intros a a' b b' [? ->] [? ->]; auto).
    assert (r2 : forall a a' b b', R a a' -> R b b' -> neqb a b = neqb a' b') by (intros a a' b b' [? ->] [? ->]; auto).
    assert (r3 : forall a a', R a a' -> nis_zero a = nis_zero a') by (intros a a' [? ->]; auto).
    assert (r4 : forall a a', R a a' -> lfrom a = lfrom a') by (intros a a' [? ->]; auto).
    assert (r5 : forall a a' b b', R a a' -> R b b' ->
      nis_zero (nadd a b) = nis_zero (nadd a' b') /\ lfrom (nadd a b) = lfrom (nadd a' b')).
    { intros a a' b b' [ha ->] [hb ->]. destruct (Hs a b ha hb) as (<- & h1 & h2). auto. }
    pose proof get_R as rg.
    repeat split; intros.
    - apply (r_fastermsc R); auto.
    - apply (r_fastmsc R); auto.
    - apply (r_dynmsc R); auto.
  Qed.
End General.

(** C70.  Machine integers: no condition on the entries, and for every loss type. *)
Theorem C70_signed {Lt : Type} `{HL : NumL Lt} `{HF : FromN Z Lt} (w : Z) (M : Mat (mint w)) :
  same_results Lt M (mat_map ival M).
Proof. apply results_same with (ok := fun _ => True); auto. Qed.
Print Assumptions C70_signed.

Theorem C70_unsigned {Lt : Type} `{HL : NumL Lt} `{HF : FromN Z Lt} (w : Z) (M : Mat (muint w)) :
  same_results Lt M (mat_map uval M).
Proof. apply results_same with (ok := fun _ => True); auto. Qed.
Print Assumptions C70_unsigned.

(** fastermsc, fastmsc and dynmsc, if the sum of two entries is in range *)
Theorem C70_signed_msc {Lt : Type} `{HL : NumL Lt} `{HF : FromN Z Lt} (w : Z) (M : Mat (mint w)) :
  (1 <= w)%Z -> (forall x y d, mget M x y = Ok d -> (2 * Z.abs (ival d) <= imax w)%Z) ->
  same_msc Lt M (mat_map ival M).
Proof.
  intros hw h. apply msc_same with (ok := fun d => (2 * Z.abs (ival d) <= imax w)%Z); auto.
  - cbn [nzero NumN_mint ival]. split; [|reflexivity]. unfold imax. pose proof (Z.pow_pos_nonneg 2 (w - 1)). simpl Z.abs. lia.
  - intros a b ha hb. cbn [nadd NumN_mint ival]. rewrite wrap_id by lia. auto.
Qed.
Print Assumptions C70_signed_msc.

Theorem C70_unsigned_msc {Lt : Type} `{HL : NumL Lt} `{HF : FromN Z Lt} (w : Z) (M : Mat (muint w)) :
  (0 <= w)%Z -> (forall x y d, mget M x y = Ok d -> (0 <= uval d /\ 2 * uval d < 2 ^ w)%Z) ->
  same_msc Lt M (mat_map uval M).
Proof.
  intros hw h. apply msc_same with (ok := fun d => (0 <= uval d /\ 2 * uval d < 2 ^ w)%Z); auto.
  - cbn [nzero NumN_muint uval]. split; [|reflexivity]. pose proof (Z.pow_pos_nonneg 2 w). lia.
  - intros a b ha hb. cbn [nadd NumN_muint uval]. rewrite Z.mod_small by lia. auto.
Qed.
Print Assumptions C70_unsigned_msc.

(** ** [f32] *)
(** an f32 value, possibly infinite or NaN *)
Definition valid32 (x : f32) : Prop :=
  match sf32 x with S754_finite _ m e => bounded sprec semax m e = true | _ => True end.

Lemma widen_compare (x y : f32) : valid32 x -> valid32 y -> SFcompare (widen (sf32 x)) (widen (sf32 y)) = SFcompare (sf32 x) (sf32 y).
Proof.
  intros hx hy.
  assert (G : forall z : f32, valid32 z -> sf_finite (sf32 z) \/ widen (sf32 z) = sf32 z /\ match sf32 z with S754_infinity _ | S754_nan => True | _ => False end).
  { intros [[s|s| |s m e]] h; cbn [sf32] in *; [left; exact I|right; auto|right; auto|left; exact h]. }
  destruct (G x hx) as [fx|[ex kx]], (G y hy) as [fy|[ey ky]].
  - destruct (widen_exact _ fx) as [gx vx]. destruct (widen_exact _ fy) as [gy vy].
    rewrite SFcompare_val by auto. rewrite SFcompare_val32 by auto. f_equal.
    apply Qcompare_comp; assumption.
  - rewrite ey. destruct (widen_exact _ fx) as [gx _].
    destruct (widen (sf32 x)); try contradiction; destruct (sf32 x); try contradiction; destruct (sf32 y); try contradiction; reflexivity.
  - rewrite ex. destruct (widen_exact _ fy) as [gy _].
    destruct (widen (sf32 y)); try contradiction; destruct (sf32 y); try contradiction; destruct (sf32 x); try contradiction; reflexivity.
  - rewrite ex, ey. reflexivity.
Qed.

(** converting the matrix to f64 first makes no difference *)
Theorem C70_f32 (M : Mat f32) : (forall x y d, mget M x y = Ok d -> valid32 d) ->
  same_results f64 M (mat_map (fun d => widen (sf32 d)) M).
Proof.
  intros h. apply results_same with (ok := valid32); auto.
  - split; [exact I|reflexivity].
  - intros a b ha hb. cbn [nltb NumN_f32 NumN_f64]. unfold SFltb. rewrite (widen_compare a b ha hb). reflexivity.
  - intros a b ha hb. cbn [neqb NumN_f32 NumN_f64]. unfold SFeqb. rewrite (widen_compare a b ha hb). reflexivity.
  - intros a ha. cbn [nis_zero NumN_f32 NumN_f64]. unfold SFeqb.
    pose proof (widen_compare (F32 (S754_zero false)) a I ha) as e. cbn [sf32 widen] in e. rewrite e. reflexivity.
Qed.
Print Assumptions C70_f32.

(** ** machine integers for both types: no overflow anywhere if three times the sum of all rows fits *)
Theorem C70_bounded (w w' m : Z) (M : Mat (mint w')) n D med maxiter order orc :
  (1 <= w)%Z -> diss_matrix (mat_map ival M) n D -> (forall x y, x < n -> y < n -> (D x y <= m)%Z) ->
  (3 * Z.of_nat n * m <= imax w)%Z ->
  sizes n (length med) -> (forall x, In x med -> x < n) -> (forall j, In j order -> j < n) -> valid_oracle orc ->
  let Mz := mat_map ival M in
  agree int_rep (fasterpam (Lt := mint w) M med maxiter) (fasterpam (Lt := Z) Mz med maxiter) /\
  agree int_rep (rand_fasterpam (Lt := mint w) M order med maxiter) (rand_fasterpam (Lt := Z) Mz order med maxiter) /\
  agree int_rep (par_fasterpam (Lt := mint w) M orc order med maxiter) (par_fasterpam (Lt := Z) Mz orc order med maxiter) /\
  agree int_rep (fastpam1 (Lt := mint w) M med maxiter) (fastpam1 (Lt := Z) Mz med maxiter) /\
  agree int_rep (pam_swap (Lt := mint w) M med maxiter) (pam_swap (Lt := Z) Mz med maxiter) /\
  agree int_rep (alternating (Lt := mint w) M med maxiter) (alternating (Lt := Z) Mz med maxiter).
Proof.
  intros hw hd hm hb hs hin ho hor Mz.
  destruct (C70_signed (Lt := mint w) w' M) as (-> & -> & -> & -> & -> & _ & _ & -> & _).
  exact (C43_same_run (imax w) m int_rep _ Mz n D med maxiter order orc (mint_laws hw) hd hm hb hs hin ho hor).
Qed.
Print Assumptions C70_bounded.

(** ** half of the range is needed *)
Definition rows_i32 : list (list Z) := Eval vm_compute in map (map (Z.mul 300000000))
  [[0; 4; 6; 7; 1]; [4; 0; 4; 2; 7]; [6; 4; 0; 7; 7]; [7; 2; 7; 0; 6]; [1; 7; 7; 6; 0]]%Z.
Definition mi32 : Mat (mint 32) := mat_of_rows (map (map MInt) rows_i32).

Lemma rows_get {A} (rows : list (list A)) (b : A -> bool) x y d :
  mget (mat_of_rows rows) x y = Ok d -> forallb b (concat rows) = true -> b d = true.
Proof.
  unfold mat_of_rows, mat_of_array2. cbn [mget a_cells]. destruct (_ && _); [|discriminate]. unfold idx.
  destruct (nth_error _ _) as [d'|] eqn:en; [|discriminate]. intros e hf. injection e as ->.
  apply nth_error_In in en. rewrite forallb_forall in hf. auto.
Qed.

(** With i32 entries below 2^31 fastmsc and fastermsc take a swap which lowers the medoid silhouette from
    32/35 to 22/35; fastmsc still reports 32/35.  On unbounded integers the medoids stay as they were;
    so they do with PAMMEDSIL on the same input. *)
Theorem C70_overflow_refuted : exists (M : Mat (mint 32)) n D med,
  diss_matrix (mat_map ival M) n D /\ symmetric n (vals D) /\ (forall x y d, mget M x y = Ok d -> (0 <= ival d <= imax 32)%Z) /\
  sizes n (length med) /\ medoids n (length med) med /\
  (exists r1 r2 : pam_result f64, fastmsc M med 10 = Ok r1 /\ fastermsc M med 10 = Ok r2 /\
    (med_sil (vals D) n (r_med r1) == med_sil (vals D) n med - (2 # 7))%Q /\
    (med_sil (vals D) n (r_med r2) == med_sil (vals D) n med - (2 # 7))%Q /\
    (Qabs.Qabs (f64_val (r_loss r1) - med_sil (vals D) n (r_med r1)) >= 28 # 100)%Q) /\
  (exists r1 r2 r3 : pam_result f64, fastmsc (mat_map ival M) med 10 = Ok r1 /\ fastermsc (mat_map ival M) med 10 = Ok r2 /\
    pammedsil_swap M med 10 = Ok r3 /\ r_med r1 = med /\ r_med r2 = med /\ r_med r3 = med).
Proof.
  exists mi32, 5, (entries rows_i32), [0; 1; 2]. split.
  { destruct (@rows_diss 5 rows_i32 ltac:(lia) eq_refl) as (h1 & h2 & h3). split; [|split; [exact h2|exact h3]].
    split; [reflexivity|]. split; [reflexivity|].
    intros x y hx hy. do 5 (destruct x; [do 5 (destruct y; [reflexivity|]); lia|]). lia. }
  split; [apply rows_sym; reflexivity|]. split.
  { intros x y d e. apply (rows_get _ (fun d : mint 32 => (0 <=? ival d)%Z && (ival d <=? imax 32)%Z)) in e; [|reflexivity].
    apply andb_true_iff in e as [h1 h2]. apply Z.leb_le in h1, h2. auto. }
  split; [exact s53|]. split; [exact k53|]. split.
  - do 2 eexists. split; [vm_compute; reflexivity|]. split; [vm_compute; reflexivity|].
    split; [vm_compute; reflexivity|]. split; [vm_compute; reflexivity|]. vm_compute. discriminate.
  - do 3 eexists. split; [vm_compute; reflexivity|]. split; [vm_compute; reflexivity|].
    split; [vm_compute; reflexivity|]. vm_compute. auto.
Qed.
Print Assumptions C70_overflow_refuted.

(** concrete cases *)
Definition mi8 : Mat (mint 8) := mat_of_rows (map (map MInt) rows5).
Definition C70_case := C70_signed (Lt := f64) 8 mi8.
Definition mu8 : Mat (muint 8) := mat_of_rows (map (map UInt) rows5).
Definition C70_case_unsigned := C70_unsigned (Lt := f64) 8 mu8.
Lemma mi8_small x y d : mget mi8 x y = Ok d -> (2 * Z.abs (ival d) <= imax 8)%Z.
Proof.
  intros e. apply Z.leb_le. apply (rows_get _ (fun d : mint 8 => (2 * Z.abs (ival d) <=? imax 8)%Z) _ _ _ e). reflexivity.
Qed.
Lemma mu8_small x y d : mget mu8 x y = Ok d -> (0 <= uval d /\ 2 * uval d < 2 ^ 8)%Z.
Proof.
  intros e. apply (rows_get _ (fun d : muint 8 => (0 <=? uval d)%Z && (2 * uval d <? 2 ^ 8)%Z)) in e; [|reflexivity].
  apply andb_true_iff in e as [h1 h2]. apply Z.leb_le in h1. apply Z.ltb_lt in h2. auto.
Qed.
Definition C70_case_msc := C70_signed_msc (Lt := f64) 8 mi8 ltac:(lia) mi8_small.
Definition C70_case_unsigned_msc := C70_unsigned_msc (Lt := f64) 8 mu8 ltac:(lia) mu8_small.
Example C70_case_runs : exists r : pam_result f64, fastermsc mi8 [0; 1; 2] 10 = Ok r /\ fastermsc (mat_map ival mi8) [0; 1; 2] 10 = Ok r /\
  0 < r_swaps r.
Proof. eexists. split; [vm_compute; reflexivity|]. split; [vm_compute; reflexivity|]. vm_compute. lia. Qed.

Definition mi6 : Mat (mint 8) := mat_of_rows (map (map MInt) rows6).
Lemma mi6_diss : diss_matrix (mat_map ival mi6) 6 d6.
Proof.
  destruct m6_diss as (h1 & h2 & h3). split; [|split; [exact h2|exact h3]].
  split; [reflexivity|]. split; [reflexivity|].
  intros x y hx hy. do 6 (destruct x; [do 6 (destruct y; [reflexivity|]); lia|]). lia.
Qed.
Definition C70_case_bounded := C70_bounded 8 8 7 mi6 6 d6 [0; 1; 3] 10 [3; 5; 0; 1; 4; 2] P_Pam.orc2 ltac:(lia) mi6_diss d6_max
  ltac:(vm_compute; discriminate) s63 (proj2 (proj2 k63)) (fun j h => ltac:(simpl in h; lia)) P_Pam.orc2_ok.

(** an f32 matrix with an infinite and a NaN entry *)
Definition s32_of (z e : Z) : f32 := F32 (binary_normalize sprec semax z e false).
Definition rows_s32 : list (list f32) := Eval vm_compute in
  [[s32_of 0 0; s32_of 3 (-1); F32 (S754_infinity false); s32_of 1 (-3)]; [s32_of 3 (-1); s32_of 0 0; s32_of 1 0; s32_of 7 (-140)];
   [s32_of 2 0; F32 S754_nan; s32_of 0 0; s32_of 5 0]; [s32_of 1 (-3); s32_of 7 (-140); s32_of 5 0; s32_of 0 0]].
Lemma s32_valid x y d : mget (mat_of_rows rows_s32) x y = Ok d -> valid32 d.
Proof.
  intros e. apply (rows_get _ (fun d => match sf32 d with S754_finite _ m e => bounded sprec semax m e | _ => true end)) in e; [|reflexivity].
  unfold valid32. destruct (sf32 d); auto.
Qed.
Definition C70_case_f32 := C70_f32 (mat_of_rows rows_s32) s32_valid.
