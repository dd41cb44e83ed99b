(** P_Checked.v -- property C77: builds with overflow checks.  With machine integers of [w] bits as losses, every
    algorithm of the PAM family compiled with overflow checks either panics with an overflow, or does exactly what
    the release build does and what it would do with unbounded integers.  If [3 * n * m] fits into the type, it
    does not panic with an overflow.
    Every theorem is followed by a concrete input which meets its hypotheses. *)
From Coq Require Import ZArith QArith Lia Permutation.
From Verif Require Import Base Num M_Mat M_Util M_Fasterpam M_Pam M_Alternating M_ParFasterpam M_Checked Inst Hoare
  Spec Laws ParFacts Adapter Bounded BoundedMain BoundedChk CheckedFacts Ex P_Fasterpam P_Pam P_Bounded P_Types.
Open Scope nat_scope.

(** a result of [w] bits, or the panic "attempt to add with overflow" *)
Definition in_range (w z : Z) : res (mint w) :=
  if ((- 2 ^ (w - 1) <=? z) && (z <=? imax w))%Z then Ok (MInt z) else Panic P_overflow.

(** [+], [-] and unary [-] of a build with overflow checks *)
Definition debug (w : Z) : arith (mint w) := {|
  cadd := fun a b => in_range w (ival a + ival b);
  csub := fun a b => in_range w (ival a - ival b);
  cneg := fun a => in_range w (- ival a)
|}.

(** the same panic, or the same clustering and counters and equal losses *)
Definition same_outcome {w} (x : res (pam_result (mint w))) (y : res (pam_result Z)) : Prop :=
  match x, y with
  | Ok r, Ok rz => r_med r = r_med rz /\ r_assi r = r_assi rz /\ r_iter r = r_iter rz /\ r_swaps r = r_swaps rz /\
                   ival (r_loss r) = r_loss rz
  | Panic p, Panic q => p = q
  | _, _ => False
  end.
Definition same_build_outcome {w} (x : res (mint w * list nat * list nat)) (y : res (Z * list nat * list nat)) : Prop :=
  match x, y with
  | Ok (l, assi, med), Ok (lz, assiz, medz) => ival l = lz /\ assi = assiz /\ med = medz
  | Panic p, Panic q => p = q
  | _, _ => False
  end.

(** ** [w]-bit integers which do not wrap around, for the comparison *)
Definition NumL_unb w : NumL (mint w) := {|
  lzero := MInt 0; lone := MInt 1;
  ladd := fun a b => MInt (ival a + ival b);
  lsub := fun a b => MInt (ival a - ival b);
  lneg := fun a => MInt (- ival a);
  ldiv := fun a b => MInt (Z.quot (ival a) (ival b));
  lltb := fun a b => (ival a <? ival b)%Z; lleb := fun a b => (ival a <=? ival b)%Z;
  lfrom_u32 := fun n => MInt (Z.of_N n)
|}.

Lemma Repr_unb w B : @Repr (mint w) (NumL_unb w) B int_rep.
Proof.
  unfold int_rep. split; cbn [lzero ladd lsub lneg lltb lleb NumL_unb ival]; intros; subst; reflexivity.
Qed.

Lemma in_range_rle w z : rle (in_range w z) (Ok (MInt z)).
Proof. unfold in_range. destruct (_ && _)%bool; [right|left]; reflexivity. Qed.
Lemma in_range_wrap w z : (1 <= w)%Z -> rle (in_range w z) (Ok (MInt (wrap w z))).
Proof.
  intros hw. unfold in_range. destruct (_ && _)%bool eqn:e; [right|left; reflexivity].
  apply andb_true_iff in e as [e1 e2]. apply Z.leb_le in e1, e2. do 2 f_equal. symmetry.
  unfold wrap, imax in *. assert (h : (2 ^ w = 2 * 2 ^ (w - 1))%Z) by (rewrite <- Z.pow_succ_r by lia; f_equal; lia).
  rewrite Z.mod_small; lia.
Qed.
Lemma debug_checks w : Checks (debug w) (imax w) int_rep.
Proof.
  unfold int_rep. assert (h : forall z, (Z.abs z <= imax w)%Z -> in_range w z = Ok (MInt z)).
  { intros z hz. unfold in_range, imax in *. destruct (_ && _)%bool eqn:e; auto.
    apply andb_false_iff in e as [e|e]; apply Z.leb_gt in e; lia. }
  split; cbn [cadd csub cneg debug].
  - intros a b x y <- <- hz. exists (MInt (ival a + ival b)). split; [apply h; auto|reflexivity].
  - intros a b x y <- <- hz. exists (MInt (ival a - ival b)). split; [apply h; auto|reflexivity].
  - intros a x <- hz. exists (MInt (- ival a)). split; [apply h; lia|reflexivity].
Qed.

(** C77.  Whatever the inputs, a build with overflow checks panics with an overflow or does what the release build
    does. *)
Theorem C77_debug_or_release {Nt} `{HN : NumN Nt} (w : Z) `{HF : FromN Nt (mint w)} (M : Mat Nt) :
  (1 <= w)%Z -> let or_overflow {A} (x y : res A) := x = Panic P_overflow \/ x = y in
  (forall med maxiter, or_overflow (fasterpam_c (debug w) M med maxiter) (fasterpam M med maxiter)) /\
  (forall order med maxiter, or_overflow (fasterpam_order_c (debug w) M order med maxiter) (rand_fasterpam M order med maxiter)) /\
  (forall orc order med maxiter, or_overflow (par_fasterpam_c (debug w) M orc order med maxiter) (par_fasterpam M orc order med maxiter)) /\
  (forall med maxiter, or_overflow (fastpam1_c (debug w) M med maxiter) (fastpam1 M med maxiter)) /\
  (forall med maxiter, or_overflow (pam_swap_c (debug w) M med maxiter) (pam_swap M med maxiter)) /\
  (forall k, or_overflow (pam_build_c (debug w) M k) (pam_build M k)) /\
  (forall k maxiter, or_overflow (pam_c (debug w) M k maxiter) (pam M k maxiter)) /\
  (forall med maxiter, or_overflow (alternating_c (debug w) M med maxiter) (alternating M med maxiter)).
Proof.
  intros hw oo.
  assert (h1 : forall a b, rle (cadd (debug w) a b) (Ok (ladd a b))) by (intros; apply in_range_wrap; auto).
  assert (h2 : forall a b, rle (csub (debug w) a b) (Ok (lsub a b))) by (intros; apply in_range_wrap; auto).
  assert (h3 : forall a, rle (cneg (debug w) a) (Ok (lneg a))) by (intros; apply in_range_wrap; auto).
  split; [|split; [|split; [|split; [|split; [|split; [|split]]]]]]; intros.
  - apply rle_fasterpam; auto.
  - apply rle_fasterpam_order; auto.
  - apply rle_par_fasterpam; auto.
  - apply rle_fastpam1; auto.
  - apply rle_pam_swap; auto.
  - apply rle_pam_build; auto.
  - apply rle_pam; auto.
  - apply rle_alternating; auto.
Qed.
Print Assumptions C77_debug_or_release.

Section Exact.
  Context {Nt : Type} `{HN : NumN Nt} `{HFZ : FromN Nt Z}.
  Variable w m : Z.
  Context `{HF : FromN Nt (mint w)}.
  Variable M : Mat Nt.
  Hypothesis Hz : (lfrom nzero : Z) = 0%Z.
  Hypothesis Hget : forall x y d, mget M x y = Ok d -> (0 <= (lfrom d : Z) <= m)%Z.
  Hypothesis Hm : (0 <= m <= imax w)%Z.
  Hypothesis Hconv : forall d, (0 <= (lfrom d : Z) <= imax w)%Z -> ival (lfrom d : mint w) = lfrom d.

  Lemma Hokd d : (0 <= (lfrom d : Z) <= m)%Z -> okd m (int_rep (w := w)) d.
  Proof. intros h. split; [exact h|]. apply Hconv. lia. Qed.

  Lemma Hokz : okd m (int_rep (w := w)) nzero.
  Proof. apply Hokd. rewrite Hz. lia. Qed.

  Lemma rr_outcome (x : res (pam_result (mint w))) y : rr (same_result M m int_rep) x y -> same_outcome x y.
  Proof. destruct x, y; simpl; auto. unfold int_rep, same_result. intros (h1 & h2 & h3 & h4 & h5 & _). auto. Qed.
  Lemma rr_build_outcome (x : res (mint w * list nat * list nat)) y :
    rr (fun r r' => snd r = snd r' /\ snd (fst r) = snd (fst r') /\ bd int_rep (Z.of_nat (mlen M) * m) (fst (fst r)) (fst (fst r'))) x y ->
    same_build_outcome x y.
  Proof. destruct x as [[[l a] md]|], y as [[[l' a'] md']|]; simpl; auto. unfold int_rep. intros (h1 & h2 & h5 & _). auto. Qed.
End Exact.

(** a checked run which does not overflow is the run with unbounded integers *)
Lemma rle_unb {A} (x y : res A) (P : res A -> Prop) : rle x y -> P y -> x = Panic P_overflow \/ P x.
Proof. intros [->| ->] h; auto. Qed.

(** C77.  Whatever the inputs, a build with overflow checks panics with an overflow or does what it would do with
    unbounded integers: no wrong result due to an overflow gets through. *)
Theorem C77_exact_or_overflow {Nt} `{HN : NumN Nt} `{HFZ : FromN Nt Z} (w m : Z) `{HF : FromN Nt (mint w)} (M : Mat Nt) :
  (lfrom nzero : Z) = 0%Z -> (forall x y d, mget M x y = Ok d -> (0 <= (lfrom d : Z) <= m)%Z) -> (0 <= m <= imax w)%Z ->
  (forall d, (0 <= (lfrom d : Z) <= imax w)%Z -> ival (lfrom d : mint w) = lfrom d) ->
  let ok x y := x = Panic P_overflow \/ same_outcome x y in
  (forall med maxiter, ok (fasterpam_c (debug w) M med maxiter) (fasterpam (Lt := Z) M med maxiter)) /\
  (forall order med maxiter, ok (fasterpam_order_c (debug w) M order med maxiter) (rand_fasterpam (Lt := Z) M order med maxiter)) /\
  (forall orc order med maxiter, valid_oracle orc ->
     ok (par_fasterpam_c (debug w) M orc order med maxiter) (par_fasterpam (Lt := Z) M orc order med maxiter)) /\
  (forall med maxiter, ok (fastpam1_c (debug w) M med maxiter) (fastpam1 (Lt := Z) M med maxiter)) /\
  (forall med maxiter, ok (pam_swap_c (debug w) M med maxiter) (pam_swap (Lt := Z) M med maxiter)) /\
  (forall k, pam_build_c (debug w) M k = Panic P_overflow \/ same_build_outcome (pam_build_c (debug w) M k) (pam_build (Lt := Z) M k)) /\
  (forall k maxiter, ok (pam_c (debug w) M k maxiter) (pam (Lt := Z) M k maxiter)) /\
  (forall med maxiter, ok (alternating_c (debug w) M med maxiter) (alternating (Lt := Z) M med maxiter)).
Proof.
  intros hz hget hm hconv ok.
  set (U := NumL_unb w). set (A := debug w).
  assert (h1 : forall a b, rle (cadd A a b) (Ok (@ladd _ U a b))) by (intros; apply in_range_rle).
  assert (h2 : forall a b, rle (csub A a b) (Ok (@lsub _ U a b))) by (intros; apply in_range_rle).
  assert (h3 : forall a, rle (cneg A a) (Ok (@lneg _ U a))) by (intros; apply in_range_rle).
  set (B := (3 * Z.of_nat (mlen M) * m)%Z).
  pose proof (Repr_unb w B) as hr. fold U in hr.
  assert (ho : forall x y d, mget M x y = Ok d -> okd m (int_rep (w := w)) d) by (intros x y d e; eapply Hokd; eauto).
  assert (ho0 : okd m (int_rep (w := w)) nzero) by (eapply Hokz; eauto).
  assert (hb : (3 * Z.of_nat (mlen M) * m <= B)%Z) by lia.
  split; [|split; [|split; [|split; [|split; [|split; [|split]]]]]]; intros.
  - apply (@rle_unb _ _ _ (fun x => same_outcome x _) (@rle_fasterpam _ _ _ U _ A M h1 h2 med maxiter)).
    apply (rr_outcome w m M). eapply Bounded.fasterpam_order_rr; [exact hr|exact ho|exact ho0|exact hb|..].
  - apply (@rle_unb _ _ _ (fun x => same_outcome x _) (@rle_fasterpam_order _ _ _ U _ A M h1 h2 order med maxiter)).
    apply (rr_outcome w m M). eapply Bounded.fasterpam_order_rr; [exact hr|exact ho|exact ho0|exact hb|..].
  - apply (@rle_unb _ _ _ (fun x => same_outcome x _) (@rle_par_fasterpam _ _ _ U _ A M h1 h2 orc order med maxiter)).
    apply (rr_outcome w m M). eapply Bounded.par_fasterpam_rr; [exact hr|exact ho|exact ho0|exact hb|exact (fun i j => H i j)].
  - apply (@rle_unb _ _ _ (fun x => same_outcome x _) (@rle_fastpam1 _ _ _ U _ A M h1 h2 med maxiter)).
    apply (rr_outcome w m M). eapply Bounded.fastpam1_rr; [exact hr|exact ho|exact ho0|exact hb|..].
  - apply (@rle_unb _ _ _ (fun x => same_outcome x _) (@rle_pam_swap _ _ _ U _ A M h1 h2 h3 med maxiter)).
    apply (rr_outcome w m M). eapply Bounded.pam_swap_rr; [exact hr|exact ho|exact ho0|exact hb|..].
  - apply (@rle_unb _ _ _ (fun x => same_build_outcome x _) (@rle_pam_build _ _ _ U _ A M h1 h2 h3 k)).
    apply (rr_build_outcome w m M). eapply Bounded.pam_build_rr; [exact hr|exact ho|exact ho0|exact hb|..].
  - apply (@rle_unb _ _ _ (fun x => same_outcome x _) (@rle_pam _ _ _ U _ A M h1 h2 h3 k maxiter)).
    apply (rr_outcome w m M). eapply Bounded.pam_rr; [exact hr|exact ho|exact ho0|exact hb|..].
  - apply (@rle_unb _ _ _ (fun x => same_outcome x _) (@rle_alternating _ _ _ U _ A M h1 med maxiter)).
    apply (rr_outcome w m M). eapply Bounded.alternating_rr; [exact hr|exact ho|exact ho0|exact hb|..].
Qed.
Print Assumptions C77_exact_or_overflow.

(** what a returned result means in terms of the matrix only, whatever the sizes *)
Theorem C77_returned_is_optimal (w m : Z) (M : Mat Z) n D med maxiter order r :
  (1 <= w)%Z -> diss_matrix M n D -> (forall x y d, mget M x y = Ok d -> (0 <= d <= m)%Z) -> (m <= 2 ^ (w - 1) - 1)%Z ->
  sizes n (length med) -> medoids n (length med) med -> 2 <= length med \/ symmetric n (vals D) ->
  Permutation order (seq 0 n) ->
  fasterpam_order_c (debug w) M order med maxiter = Ok r ->
  exact_optimum (fun a => inject_Z (ival a)) (vals D) n (length med) maxiter med r.
Proof.
  intros hw hd hget hm hs hme hk hp e.
  assert (h0 : (0 <= m)%Z).
  { destruct hd as ((_ & _ & hg) & _). destruct hs as [hs _]. specialize (hg 0 0 ltac:(lia) ltac:(lia)). apply hget in hg. lia. }
  destruct (C77_exact_or_overflow (HN := NumN_Z) (HFZ := FromN_Z_Z) w m M eq_refl hget (conj h0 hm)) as (_ & h & _).
  { intros d hdd. cbn [lfrom FromN_Z_mint ival FromN_Z_Z] in *. apply wrap_id; auto. lia. }
  specialize (h order med maxiter). rewrite e in h. destruct h as [h|h]; [discriminate|].
  destruct (C12_rand_fasterpam (Lt := Z) M n D order med maxiter hd hs hme hk hp)
    as (q & eq & c1 & c2 & c3 & c4 & c5 & c6 & c7 & c8 & c9 & c10 & c11 & c12 & c13).
  rewrite eq in h. destruct h as (h1 & h2 & h3 & h4 & h5).
  unfold exact_optimum. rewrite h1, h2, h3, h4, h5. auto 12.
Qed.
Print Assumptions C77_returned_is_optimal.

Lemma outcome_eq {w} (x x' : res (pam_result (mint w))) y : same_outcome x y -> same_outcome x' y -> x = x'.
Proof.
  destruct x as [r|p], x' as [r'|p'], y as [rz|q]; cbn [same_outcome]; try tauto; try congruence.
  destruct r as [[l] a i s md], r' as [[l'] a' i' s' md']. cbn.
  intros (h1 & h2 & h3 & h4 & h5) (g1 & g2 & g3 & g4 & g5). congruence.
Qed.
Lemma build_outcome_eq {w} (x x' : res (mint w * list nat * list nat)) y :
  same_build_outcome x y -> same_build_outcome x' y -> x = x'.
Proof.
  destruct x as [[[[l] a] md]|p], x' as [[[[l'] a'] md']|p'], y as [[[lz az] mz]|q]; cbn [same_build_outcome ival]; try tauto; try congruence.
  intros (h1 & h2 & h3) (g1 & g2 & g3). congruence.
Qed.

(** C77.  If [3 * n * m] fits into the type, the overflow checks make no difference, whatever the other inputs:
    no check fails, and every panic is also one of the release build. *)
Theorem C77_no_overflow {Nt} `{HN : NumN Nt} `{HFZ : FromN Nt Z} (w m : Z) `{HF : FromN Nt (mint w)} (M : Mat Nt) :
  (1 <= w)%Z -> (lfrom nzero : Z) = 0%Z -> (forall x y d, mget M x y = Ok d -> (0 <= (lfrom d : Z) <= m)%Z) ->
  (0 <= m <= imax w)%Z -> (3 * Z.of_nat (mlen M) * m <= imax w)%Z ->
  (forall d, (0 <= (lfrom d : Z) <= imax w)%Z -> ival (lfrom d : mint w) = lfrom d) ->
  (forall med maxiter, fasterpam_c (debug w) M med maxiter = fasterpam M med maxiter) /\
  (forall order med maxiter, fasterpam_order_c (debug w) M order med maxiter = rand_fasterpam M order med maxiter) /\
  (forall orc order med maxiter, valid_oracle orc ->
     par_fasterpam_c (debug w) M orc order med maxiter = par_fasterpam M orc order med maxiter) /\
  (forall med maxiter, fastpam1_c (debug w) M med maxiter = fastpam1 M med maxiter) /\
  (forall med maxiter, pam_swap_c (debug w) M med maxiter = pam_swap M med maxiter) /\
  (forall k, pam_build_c (debug w) M k = pam_build M k) /\
  (forall k maxiter, pam_c (debug w) M k maxiter = pam M k maxiter) /\
  (forall med maxiter, alternating_c (debug w) M med maxiter = alternating M med maxiter).
Proof.
  intros hw hz hget hm hb hconv. set (A := debug w).
  pose proof (debug_checks w) as hc. fold A in hc. pose proof (Repr_mint hw) as hr.
  assert (ho : forall x y d, mget M x y = Ok d -> okd m (int_rep (w := w)) d) by (intros x y d e; eapply Hokd; eauto).
  assert (ho0 : okd m (int_rep (w := w)) nzero) by (eapply Hokz; eauto).
  split; [|split; [|split; [|split; [|split; [|split; [|split]]]]]]; intros;
    first [eapply outcome_eq; eapply (rr_outcome w m M) | eapply build_outcome_eq; eapply (rr_build_outcome w m M)].
  - eapply BoundedChk.fasterpam_order_rr; [exact hr|exact hc|exact ho|exact ho0|exact hb].
  - eapply Bounded.fasterpam_order_rr; [exact hr|exact ho|exact ho0|exact hb].
  - eapply BoundedChk.fasterpam_order_rr; [exact hr|exact hc|exact ho|exact ho0|exact hb].
  - eapply Bounded.fasterpam_order_rr; [exact hr|exact ho|exact ho0|exact hb].
  - eapply BoundedChk.par_fasterpam_rr; [exact hr|exact hc|exact ho|exact ho0|exact hb|exact (fun i j => H i j)].
  - eapply Bounded.par_fasterpam_rr; [exact hr|exact ho|exact ho0|exact hb|exact (fun i j => H i j)].
  - eapply BoundedChk.fastpam1_rr; [exact hr|exact hc|exact ho|exact ho0|exact hb].
  - eapply Bounded.fastpam1_rr; [exact hr|exact ho|exact ho0|exact hb].
  - eapply BoundedChk.pam_swap_rr; [exact hr|exact hc|exact ho|exact ho0|exact hb].
  - eapply Bounded.pam_swap_rr; [exact hr|exact ho|exact ho0|exact hb].
  - eapply BoundedChk.pam_build_rr; [exact hr|exact hc|exact ho|exact ho0|exact hb].
  - eapply Bounded.pam_build_rr; [exact hr|exact ho|exact ho0|exact hb].
  - eapply BoundedChk.pam_rr; [exact hr|exact hc|exact ho|exact ho0|exact hb].
  - eapply Bounded.pam_rr; [exact hr|exact ho|exact ho0|exact hb].
  - eapply BoundedChk.alternating_rr; [exact hr|exact hc|exact ho|exact ho0|exact hb].
  - eapply Bounded.alternating_rr; [exact hr|exact ho|exact ho0|exact hb].
Qed.
Print Assumptions C77_no_overflow.

(** Without the bound it may panic although all dissimilarities fit into the type: the matrix of C43, [i8], on which the
    release build returns a wrong loss. *)
Theorem C77_overflow_refuted : exists (M : Mat Z) D (r : pam_result (mint 8)),
  diss_matrix M 4 D /\ (forall x y, x < 4 -> y < 4 -> (0 <= D x y <= 100)%Z) /\ medoids 4 2 [0; 1] /\
  pam_swap_c (debug 8) M [0; 1] 10 = Panic P_overflow /\ pam_swap M [0; 1] 10 = Ok r /\
  ~ (inject_Z (ival (r_loss r)) == assigned_cost (vals D) 4 (r_med r) (r_assi r))%Q.
Proof.
  exists (mat_of_rows rows_of), (entries rows_of), (mkPR (MInt (-56)) [1; 1; 0; 0] 1 1 [2; 1]).
  split; [apply rows_diss; [lia|reflexivity]|]. split.
  - assert (h : forallb (fun x => forallb (fun y => (0 <=? entries rows_of x y) && (entries rows_of x y <=? 100))%Z (seq 0 4)) (seq 0 4) = true) by reflexivity.
    intros x y hx hy. pose proof (forallb_seq _ h hx) as h1. pose proof (forallb_seq _ h1 hy) as h2. cbv beta in h2.
    apply andb_true_iff in h2 as [h2 h3]. apply Z.leb_le in h2, h3. auto.
  - split; [apply meds_ok; reflexivity|]. split; [vm_compute; reflexivity|]. split; vm_compute; [reflexivity|discriminate].
Qed.
Print Assumptions C77_overflow_refuted.

(** ** cases: the matrix of Ex.v, losses of type [i8] *)
Lemma m6_get x y d : mget m6 x y = Ok d -> (0 <= d <= 7)%Z.
Proof.
  intros e. unfold m6, mat_of_rows, mat_of_array2 in e. cbn [mget] in e.
  assert (hin : In d (concat rows6)).
  { destruct (_ && _)%bool in e; [|discriminate]. unfold idx in e. destruct (nth_error _ _) eqn:en in e; [|discriminate].
    injection e as <-. eapply nth_error_In; eauto. }
  assert (h : forallb (fun z => (0 <=? z) && (z <=? 7))%Z (concat rows6) = true) by reflexivity.
  rewrite forallb_forall in h. specialize (h _ hin).
  apply andb_true_iff in h as [h1 h2]. apply Z.leb_le in h1, h2. auto.
Qed.
Lemma conv8 (d : Z) : (0 <= (lfrom d : Z) <= imax 8)%Z -> ival (lfrom d : mint 8) = lfrom d.
Proof. intros h. cbn [lfrom FromN_Z_mint ival FromN_Z_Z] in *. apply wrap_id; lia. Qed.

Definition C77_release_case := C77_debug_or_release (Nt := Z) 8 m6 ltac:(lia).
Definition C77_exact_case := C77_exact_or_overflow (HN := NumN_Z) (HFZ := FromN_Z_Z) 8 7 m6 eq_refl m6_get (conj (Zle_bool_imp_le 0 7 eq_refl) (Zle_bool_imp_le 7 (imax 8) eq_refl)) conv8.
Definition C77_case := C77_no_overflow (HN := NumN_Z) (HFZ := FromN_Z_Z) 8 7 m6 ltac:(lia) eq_refl m6_get (conj (Zle_bool_imp_le 0 7 eq_refl) (Zle_bool_imp_le 7 (imax 8) eq_refl))
  (Zle_bool_imp_le (3 * 6 * 7) (imax 8) eq_refl) conv8.
Example C77_value : fasterpam_c (debug 8) m6 [0; 1; 3] 10 = Ok (mkPR (MInt 1) [1; 1; 0; 2; 0; 0] 2 2 [4; 1; 3]).
Proof. vm_compute. reflexivity. Qed.
Definition C77_optimal_case := C77_returned_is_optimal 8 7 m6 6 d6 [0; 1; 3] 10 (seq 0 6) (mkPR (MInt 1) [1; 1; 0; 2; 0; 0] 2 2 [4; 1; 3])
  ltac:(lia) m6_diss m6_get ltac:(lia) s63 k63 (or_introl le23) (Permutation_refl _) C77_value.
(** beyond the bound: 4 bits (-8..7), where some starts overflow and others do not *)
Example C77_values4 :
  fasterpam_c (debug 4) m6 [0; 1; 3] 10 = Ok (mkPR (MInt 1) [1; 1; 0; 2; 0; 0] 2 2 [4; 1; 3]) /\
  fasterpam_c (debug 4) m6 [0] 10 = Panic P_overflow.
Proof. vm_compute. split; reflexivity. Qed.
