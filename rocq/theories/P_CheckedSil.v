(** P_CheckedSil.v -- property C85: the silhouettes and PAMSIL with integer losses panic rather than return a wrong
    value in builds with overflow checks; divisions by zero.
    Every theorem is followed by a concrete input which meets its hypotheses. *)
From Coq Require Import ZArith QArith Lia Permutation.
From Verif Require Import Base Num M_Mat M_Util M_Fasterpam M_Pam M_Alternating M_Silhouette M_Pamsil M_Checked M_CheckedSil
  Inst Hoare Spec SpecFacts Laws SilFacts PamsilFacts Bounded BoundedMain BoundedChk Adapter CheckedFacts CheckedSilFacts Ex
  P_Silhouette P_IntSil P_Bounded P_Checked P_IntSilMachine.
Open Scope nat_scope.

(** division of [w]-bit integers, in every build *)
Definition machine_div (w : Z) (a b : mint w) : res (mint w) :=
  if ((ival b =? 0) || ((ival a =? - 2 ^ (w - 1)) && (ival b =? -1)))%Z then Panic P_overflow else Ok (ldiv a b).

(** a build with overflow checks *)
Definition debug_sil (w : Z) : sarith (mint w) := {|
  loss_arith := debug w;
  cdiv := machine_div w;
  cinc := fun c => if (N.of_nat c <? u32_max)%N then Ok (S c) else Panic P_overflow
|}.

(** a build without them: additions, subtractions and counters wrap around *)
Definition release_sil (w : Z) : sarith (mint w) := {|
  loss_arith := {| cadd := fun a b => Ok (ladd a b); csub := fun a b => Ok (lsub a b); cneg := fun a => Ok (lneg a) |};
  cdiv := machine_div w;
  cinc := fun c => Ok (if (N.of_nat c <? u32_max)%N then S c else 0)
|}.

(** C85.  Whatever the inputs, a build with overflow checks panics with an arithmetic panic or does what the
    functions of M_Silhouette.v and M_Pamsil.v do. *)
Theorem C85_debug_or_model {Nt} `{HN : NumN Nt} (w : Z) `{HF : FromN Nt (mint w)} (M : Mat Nt) :
  (1 <= w)%Z -> let or_panic {A} (x y : res A) := x = Panic P_overflow \/ x = y in
  (forall assi samples, or_panic (silhouette_c (debug_sil w) M assi samples) (silhouette M assi samples)) /\
  (forall assi, or_panic (par_silhouette_c (debug_sil w) M assi) (par_silhouette M assi)) /\
  (forall med samples, or_panic (medoid_silhouette_c (debug_sil w) M med samples) (medoid_silhouette M med samples)) /\
  (forall med maxiter, or_panic (pamsil_swap_c (debug_sil w) M med maxiter) (pamsil_swap M med maxiter)) /\
  (forall k maxiter, or_panic (pamsil_c (debug_sil w) M k maxiter) (pamsil M k maxiter)).
Proof.
  intros hw oo.
  assert (h1 : forall a b, rle (cadd (loss_arith (debug_sil w)) a b) (Ok (ladd a b))) by (intros; apply in_range_wrap; auto).
  assert (h2 : forall a b, rle (csub (loss_arith (debug_sil w)) a b) (Ok (lsub a b))) by (intros; apply in_range_wrap; auto).
  assert (h3 : forall a, rle (cneg (loss_arith (debug_sil w)) a) (Ok (lneg a))) by (intros; apply in_range_wrap; auto).
  assert (h4 : forall a b, rle (cdiv (debug_sil w) a b) (Ok (ldiv a b))).
  { intros a b. cbn [cdiv debug_sil]. unfold machine_div. destruct (_ || _)%bool; [left|right]; reflexivity. }
  assert (h5 : forall c, rle (cinc (debug_sil w) c) (Ok (S c))).
  { intros c. cbn [cinc debug_sil]. destruct (_ <? _)%N; [right|left]; reflexivity. }
  split; [|split; [|split; [|split]]]; intros.
  - apply rle_silhouette; auto.
  - apply rle_par_silhouette; auto.
  - apply rle_medoid_silhouette; auto.
  - apply rle_pamsil_swap; auto.
  - apply rle_pamsil; auto.
Qed.
Print Assumptions C85_debug_or_model.
(** the matrix of Ex.v, losses of type [i64] *)
Definition C85_debug_case := C85_debug_or_model (Nt := Z) 64 m6 ltac:(lia).

(** [From<u32>] is implemented by types with [2^32 - 1] in their range *)
Lemma u32_positive (w : Z) : (1 <= w)%Z -> (4294967295 <= imax w)%Z -> forall c, (0 < c <= u32_max)%N -> lltb (lzero : mint w) (lfrom_u32 c) = true.
Proof.
  intros hw hi c hc. cbn [lltb lzero lfrom_u32 NumL_mint ival]. unfold u32_max in hc. rewrite wrap_id by lia.
  apply Z.ltb_lt. lia.
Qed.

Lemma machine_div_pos w (a b : mint w) : lltb lzero b = true -> machine_div w a b = Ok (ldiv a b).
Proof.
  cbn [lltb lzero NumL_mint ival]. intros h. apply Z.ltb_lt in h. unfold machine_div.
  replace (ival b =? 0)%Z with false by (symmetry; apply Z.eqb_neq; lia).
  replace (ival b =? -1)%Z with false by (symmetry; apply Z.eqb_neq; lia). rewrite Bool.andb_false_r. reflexivity.
Qed.

Lemma ms_best_range (M : Mat Z) (m : Z) meds i best : (forall x y d, mget M x y = Ok d -> (0 <= d <= m)%Z) ->
  ms_best M meds i = Ok best -> (0 <= fst best <= snd best /\ snd best <= m)%Z.
Proof.
  intros hg e. unfold ms_best in e. apply bind_ok in e as (m0 & _ & e). apply bind_ok in e as (d1 & e1 & e).
  apply bind_ok in e as (m1 & _ & e). apply bind_ok in e as (d2 & e2 & e). apply hg in e1, e2.
  revert e. apply foldM_unary with (P := fun b : Z * Z => (0 <= fst b <= snd b /\ snd b <= m)%Z).
  - intros b x b' _ hb e. apply bind_ok in e as (d & ed & e). injection e as <-. apply hg in ed. cbn [nltb NumN_Z].
    destruct (Z.ltb_spec d (fst b)); cbn; [lia|]. destruct (Z.ltb_spec d (snd b)); cbn; lia.
  - cbn [nltb NumN_Z]. destruct (Z.ltb_spec d1 d2); cbn; lia.
Qed.

(** C85.  In a build without overflow checks a division by zero occurs only for an empty clustering: the divisions of the
    silhouettes are guarded, so that no arithmetic panic occurs, and the [u32] counters do not wrap around. *)
Theorem C85_no_division_by_zero (w : Z) (M : Mat Z) : (1 <= w)%Z -> (4294967295 <= imax w)%Z ->
  (N.of_nat (mlen M) <= 4294967295)%N ->
  (forall assi samples, 1 <= length assi -> (N.of_nat (length assi) <= 4294967295)%N ->
     silhouette_c (release_sil w) M assi samples = silhouette M assi samples) /\
  (forall assi, 1 <= length assi -> (N.of_nat (length assi) <= 4294967295)%N ->
     par_silhouette_c (release_sil w) M assi = par_silhouette M assi) /\
  (forall med samples, 1 <= mlen M -> (forall x y d, mget M x y = Ok d -> (0 <= d <= imax w)%Z) ->
     medoid_silhouette_c (release_sil w) M med samples = medoid_silhouette M med samples) /\
  (forall med maxiter, pamsil_swap_c (release_sil w) M med maxiter = pamsil_swap M med maxiter) /\
  (forall k maxiter, pamsil_c (release_sil w) M k maxiter = pamsil M k maxiter) /\
  (forall samples, msquare M = Ok true ->
     silhouette_c (release_sil w) M [] samples = Panic P_overflow /\ par_silhouette_c (release_sil w) M [] = Panic P_overflow).
Proof.
  intros hw hi hn. set (C := release_sil w).
  assert (HA : loss_arith C = {| cadd := fun a b => Ok (ladd a b); csub := fun a b => Ok (lsub a b); cneg := fun a => Ok (lneg a) |}) by reflexivity.
  assert (hd : forall a b, lltb lzero b = true -> cdiv C a b = Ok (ldiv a b)) by (intros; apply machine_div_pos; auto).
  assert (hc : forall c, (N.of_nat c < u32_max)%N -> cinc C c = Ok (S c)).
  { intros c h. cbn [cinc C release_sil]. replace (N.of_nat c <? u32_max)%N with true by (symmetry; apply N.ltb_lt; auto). reflexivity. }
  pose proof (u32_positive w hw hi) as hp.
  split; [intros; apply silhouette_rel; auto|]. split; [intros; apply par_silhouette_rel; auto|].
  split; [|split; [intros; apply pamsil_swap_rel; auto|split; [intros; apply pamsil_rel; auto|]]].
  - intros med samples h1 hg. unfold medoid_silhouette_c, medoid_silhouette.
    destruct (msquare M); cbn [bind]; [|reflexivity]. destruct (assertb _ _); cbn [bind]; [|reflexivity].
    destruct (assertb _ _); cbn [bind]; [|reflexivity]. destruct (length med =? 1); [reflexivity|].
    destruct (assertb _ _); cbn [bind]; [|reflexivity].
    rewrite (foldM_ext'' (ms_step_c C M med samples) (ms_step M med samples)).
    + destruct (foldM _ _ _) as [[loss sil]|]; cbn [bind]; [|reflexivity]. rewrite hd.
      * reflexivity.
      * unfold as_u32. rewrite N.mod_small by lia. apply hp. unfold u32_max. lia.
    + intros [loss sil] i. unfold ms_step_c, ms_step. destruct (ms_best M med i) as [best|] eqn:eb; cbn [bind]; [|reflexivity].
      destruct (negb (nis_zero (fst best))) eqn:ez; [|reflexivity]. cbv zeta.
      apply (ms_best_range M (imax w)) in eb; [|exact hg]. cbn [nis_zero NumN_Z] in ez. apply Bool.negb_true_iff, Z.eqb_neq in ez.
      rewrite hd; [cbn [bind]; destruct samples; reflexivity|].
      cbn [lltb lzero lfrom NumL_mint FromN_Z_mint ival]. rewrite wrap_id by lia. apply Z.ltb_lt. lia.
  - intros samples e. unfold silhouette_c, par_silhouette_c. rewrite e. cbn [bind assertb enum length seq combine mapM forM foldM sl_done].
    assert (e0 : forall a : mint w, cdiv C a (lfrom_u32 (as_u32 0)) = Panic P_overflow).
    { intros a. cbn [cdiv C release_sil]. unfold machine_div. cbn [lfrom_u32 NumL_mint ival]. change (Z.of_N (as_u32 0)) with 0%Z.
      rewrite wrap_id by lia. reflexivity. }
    split; [|apply e0]. destruct samples; cbn [length repeat sl_vec sl_sum negb orb Nat.eqb assertb bind]; rewrite e0; reflexivity.
Qed.
Print Assumptions C85_no_division_by_zero.
(** the matrix of Ex.v, losses of type [i64] *)
Definition C85_division_case := C85_no_division_by_zero 64 m6 ltac:(lia) (Zle_bool_imp_le 4294967295 (imax 64) eq_refl) ltac:(vm_compute; discriminate).

(** ** the results of unbounded integers *)
(** the same outcome; an arithmetic panic only if not [safe] *)
Definition rs {A A'} (safe : bool) (R : A -> A' -> Prop) (x : res A) (y : res A') : Prop :=
  (safe = false /\ x = Panic P_overflow) \/ rr R x y.

Lemma rs_bind {A A' B B'} safe (R : A -> A' -> Prop) (Q : B -> B' -> Prop) m m' f f' :
  rs safe R m m' -> (forall a a', R a a' -> rs safe Q (f a) (f' a')) -> rs safe Q (bind m f) (bind m' f').
Proof.
  intros [[h ->]|h] hf; [left; auto|]. destruct m as [a|p], m' as [a'|p']; cbn in h; try tauto; [apply hf; auto|].
  right. exact h.
Qed.
Lemma rs_mono {A A'} safe (R Q : A -> A' -> Prop) x y : rs safe R x y -> (forall a a', R a a' -> Q a a') -> rs safe Q x y.
Proof. intros [h|h] hq; [left; auto|right; eapply rr_mono; eauto]. Qed.
Lemma rs_foldM {A T T'} safe (f : T -> A -> res T) (f' : T' -> A -> res T') l (J : nat -> T -> T' -> Prop) :
  (forall t a s s', nth_error l t = Some a -> J t s s' -> rs safe (J (S t)) (f s a) (f' s' a)) ->
  forall s s', J 0 s s' -> rs safe (J (length l)) (foldM f l s) (foldM f' l s').
Proof.
  revert J. induction l as [|a l IH]; intros J h s s' h0; cbn [foldM length]; [right; exact h0|].
  eapply rs_bind; [apply (h 0 a s s' eq_refl h0)|]. intros b b' hb.
  apply (IH (fun t => J (S t))); [|exact hb]. intros t x u u' hx hu. apply (h (S t)); auto.
Qed.
Lemma rs_forM {A T T'} safe (f : T -> A -> res (ctl T)) (f' : T' -> A -> res (ctl T')) l (J : nat -> T -> T' -> Prop) (F : T -> T' -> Prop) :
  (forall t a s s', nth_error l t = Some a -> J t s s' ->
     rs safe (fun c c' => match c, c' with Next u, Next u' => J (S t) u u' | Break u, Break u' => F u u' | _, _ => False end)
       (f s a) (f' s' a)) ->
  (forall s s', J (length l) s s' -> F s s') -> forall s s', J 0 s s' -> rs safe F (forM f l s) (forM f' l s').
Proof.
  revert J. induction l as [|a l IH]; intros J h hF s s' h0; cbn [forM length]; [right; cbn; apply hF; exact h0|].
  eapply rs_bind; [apply (h 0 a s s' eq_refl h0)|]. intros [b|b] [b'|b'] hb; try tauto; [|right; exact hb].
  apply (IH (fun t => J (S t))); [|exact hF|exact hb]. intros t x u u' hx hu. apply (h (S t)); auto.
Qed.
Lemma rs_whileM {T T'} safe (R : T -> T' -> Prop) (f : T -> res (ctl T)) (f' : T' -> res (ctl T')) fuel :
  (forall s s', R s s' -> rs safe (rc R) (f s) (f' s')) ->
  forall s s', R s s' -> rs safe R (whileM fuel f s) (whileM fuel f' s').
Proof.
  intros h. induction fuel as [|fuel IH]; intros s s' h0; cbn [whileM]; [right; exact h0|].
  eapply rs_bind; [apply h; exact h0|]. intros [b|b] [b'|b'] hb; cbn in hb; try tauto; [apply IH; auto|right; exact hb].
Qed.
Lemma rs_mapM {A B B'} safe (R : B -> B' -> Prop) (f : A -> res B) (f' : A -> res B') l :
  (forall a, In a l -> rs safe R (f a) (f' a)) -> rs safe (Forall2 R) (mapM f l) (mapM f' l).
Proof.
  induction l as [|a l IH]; intros h; cbn [mapM]; [right; cbn; auto|].
  eapply rs_bind; [apply h; simpl; auto|]. intros b b' hb.
  eapply rs_bind; [apply IH; intros; apply h; simpl; auto|]. intros bs bs' hbs. right. cbn. auto.
Qed.
(** the same computation on both sides *)
Lemma rs_same {A} safe (x : res A) : rs safe (fun a a' => a = a' /\ x = Ok a) x x.
Proof. right. apply rr_same. Qed.

Section Exact.
  Variable w : Z.
  Variable M : Mat Z.
  Variable m : Z.
  Variable safe : bool.
  Hypothesis hw : (1 <= w)%Z.
  Hypothesis Hget : forall x y d, mget M x y = Ok d -> (0 <= d <= m)%Z.
  Hypothesis hm : (0 <= m <= imax w)%Z.
  Hypothesis hu : (4294967295 <= imax w)%Z.
  Local Notation n := (mlen M).
  Hypothesis HB : safe = true -> (3 * Z.of_nat n * m <= imax w)%Z /\ (N.of_nat n <= u32_max)%N.
  Local Notation C := (debug_sil w).

  Definition fits (z : Z) : Prop := (- 2 ^ (w - 1) <= z <= imax w)%Z.
  (** a machine integer and its value *)
  Definition rv (a : mint w) (z : Z) : Prop := a = MInt z /\ fits z.

  Lemma fits_abs z : (Z.abs z <= imax w)%Z -> fits z.
  Proof. unfold fits, imax. lia. Qed.
  Lemma wrap_fits z : fits z -> wrap w z = z.
  Proof.
    unfold fits, wrap, imax. intros h. assert (e : (2 ^ w = 2 * 2 ^ (w - 1))%Z) by (rewrite <- Z.pow_succ_r by lia; f_equal; lia).
    rewrite Z.mod_small; lia.
  Qed.
  Lemma from_rv d : (0 <= d <= m)%Z -> (lfrom d : mint w) = MInt d.
  Proof. intros h. cbn [lfrom FromN_Z_mint]. f_equal. apply wrap_id; lia. Qed.

  Lemma in_range_rs z : (safe = true -> fits z) -> rs safe rv (in_range w z) (Ok z).
  Proof.
    intros h. unfold in_range. destruct (_ && _)%bool eqn:e.
    - right. cbn. split; [reflexivity|]. apply andb_true_iff in e as [e1 e2]. apply Z.leb_le in e1, e2. split; auto.
    - left. split; [|reflexivity]. destruct safe; [|reflexivity]. specialize (h eq_refl) as [q1 q2].
      apply andb_false_iff in e as [e|e]; apply Z.leb_gt in e; lia.
  Qed.

  Lemma quot_range x y : (0 < y)%Z -> (0 <= x -> 0 <= Z.quot x y <= x)%Z /\ (x <= 0 -> x <= Z.quot x y <= 0)%Z.
  Proof.
    intros hy. assert (h : forall z, (0 <= z -> 0 <= Z.quot z y <= z)%Z).
    { intros z hz. rewrite Z.quot_div_nonneg by lia. split; [apply Z.div_pos; lia|apply Z.div_le_upper_bound; nia]. }
    split; [apply h|]. intros hx. specialize (h (- x)%Z ltac:(lia)). rewrite Z.quot_opp_l in h by lia. lia.
  Qed.

  Lemma div_rs x y : fits x -> (0 <= y)%Z -> (safe = true -> 0 < y)%Z -> rs safe rv (machine_div w (MInt x) (MInt y)) (Ok (Z.quot x y)).
  Proof.
    intros hx hy hs. destruct (Z.eq_dec y 0) as [->|hy0].
    - left. split; [destruct safe; [specialize (hs eq_refl); lia|reflexivity]|reflexivity].
    - right. assert (hp : (0 < y)%Z) by lia.
      rewrite machine_div_pos by (cbn [lltb lzero NumL_mint ival]; apply Z.ltb_lt; auto).
      cbn [rr ldiv NumL_mint ival]. destruct (quot_range x y hp) as [q1 q2].
      assert (hq : fits (Z.quot x y)) by (unfold fits in *; destruct (Z.le_gt_cases 0 x); [specialize (q1 ltac:(lia))|specialize (q2 ltac:(lia))]; lia).
      rewrite wrap_fits by auto. split; auto.
  Qed.

  (** ** silhouette *)
  Definition good_buf (t : nat) (buf : list (nat * Z)) : Prop :=
    forall p, In p buf -> fst p <= t /\ (N.of_nat (fst p) <= u32_max)%N /\ (0 <= snd p <= Z.of_nat t * m)%Z /\ (snd p <= imax w)%Z.

  Lemma sil_buf_rs assi i : (safe = true -> length assi <= n) ->
    rs safe (fun b b' => b = map (emb w) b' /\ good_buf (length assi) b') (sil_buf_c C M assi i) (sil_buf (Lt := Z) M assi i).
  Proof.
    intros hl. unfold sil_buf_c, sil_buf. eapply rs_mono.
    - apply rs_foldM with (J := fun t (b : list (nat * mint w)) (b' : list (nat * Z)) => b = map (emb w) b' /\ good_buf t b').
      + intros t [j a] b b' ht [-> hb].
        assert (hlt : t < length assi).
        { rewrite <- (length_enum assi). apply nth_error_Some. congruence. }
        assert (eg : M_Silhouette.grow (map (emb w) b') a = map (emb w) (M_Silhouette.grow b' a)).
        { unfold M_Silhouette.grow. rewrite map_app, map_length. f_equal. generalize (S a - length b'). induction n; cbn; [auto|]. f_equal. auto. }
        cbv zeta. rewrite eg.
        assert (hg : good_buf t (M_Silhouette.grow b' a)).
        { intros p hp. unfold M_Silhouette.grow in hp. apply in_app_or in hp as [hp|hp]; [auto|]. apply repeat_spec in hp. subst p. cbn.
          unfold u32_max. repeat split; try lia; nia. }
        assert (hmono : forall b, good_buf t b -> good_buf (S t) b).
        { intros b0 h p hp. destruct (h p hp) as (q1 & q2 & q3 & q4). repeat split; try lia; nia. }
        destruct (negb (i =? j)); [|right; cbn [rr]; auto].
        unfold idx. rewrite nth_error_map. destruct (nth_error (M_Silhouette.grow b' a) a) as [p|] eqn:ep; cbn [option_map bind]; [|right; reflexivity].
        apply nth_error_In in ep. destruct (hg p ep) as (p1 & p2 & p3 & p4).
        change (fst (emb w p)) with (fst p). cbn [cinc debug_sil].
        destruct (N.ltb_spec (N.of_nat (fst p)) u32_max) as [hc|hc]; cbn [bind].
        2:{ left. split; [|reflexivity]. destruct safe; [|reflexivity]. destruct (HB eq_refl). specialize (hl eq_refl). lia. }
        destruct (mget M i j) as [d|q] eqn:ed; cbn [bind]; [|right; reflexivity].
        pose proof (Hget _ _ _ ed) as hd. rewrite (from_rv d hd).
        change (snd (emb w p)) with (MInt (snd p) : mint w). cbn [cadd loss_arith debug_sil debug ival].
        change (ladd (snd p) (lfrom d)) with (snd p + d)%Z.
        assert (hr : rs safe rv (in_range w (snd p + d)) (Ok (snd p + d)%Z)).
        { apply in_range_rs. intros hs. destruct (HB hs) as [h1 h2]. specialize (hl hs). apply fits_abs. nia. }
        destruct hr as [[h1 h2]|hr]; [rewrite h2; left; auto|].
        destruct (in_range w (snd p + d)) as [z|q]; cbn [rr] in hr; [|tauto]. destruct hr as [-> hf]. cbn [bind].
        right. unfold upd. rewrite map_length. destruct (a <? length (M_Silhouette.grow b' a)); cbn [rr]; [|auto].
        split; [rewrite map_set_nth; reflexivity|].
        intros x hx. apply In_set_nth in hx as [->|hx]; [|apply (hmono _ hg x hx)].
        cbn [fst snd]. unfold fits in hf. repeat split; try lia; nia.
      + split; [reflexivity|]. intros p [].
    - cbv beta. rewrite length_enum. auto.
  Qed.

  Lemma buf_mean_rr t p : fst p <= t -> (N.of_nat (fst p) <= u32_max)%N -> (0 <= snd p)%Z -> (snd p <= imax w)%Z ->
    buf_mean_c C (emb w p) = Ok (MInt (buf_mean p)) /\ (0 <= buf_mean p <= imax w)%Z.
  Proof.
    intros h0 h1 h2 h3. unfold buf_mean_c, checked_div_c, buf_mean, checked_div, emb. unfold u32_max in h1.
    cbn [fst snd lltb ldiv lzero lfrom_u32 NumL_mint NumL_Z ival cdiv debug_sil]. rewrite nat_N_Z, (@wrap_id w (Z.of_nat (fst p))) by lia.
    destruct (Z.ltb_spec 0 (Z.of_nat (fst p))) as [h|h]; [|split; [reflexivity|lia]].
    destruct (quot_range (snd p) (Z.of_nat (fst p)) h) as [q _]. specialize (q h2).
    rewrite machine_div_pos by (cbn [lltb lzero NumL_mint ival]; apply Z.ltb_lt; auto). cbn [ldiv NumL_mint ival].
    rewrite wrap_id by lia. split; [reflexivity|lia].
  Qed.

  Lemma means_rr a buf t s : good_buf t buf ->
    let tmp := map (fun '(_, p) => buf_mean p) (filter (fun '(i, _) => negb (i =? a)) (combine (seq s (length buf)) buf)) in
    mapM (fun '(_, p) => buf_mean_c C p) (filter (fun '(i, _) => negb (i =? a)) (combine (seq s (length buf)) (map (emb w) buf))) =
      Ok (map (fun z => MInt z : mint w) tmp) /\ forall x, In x tmp -> (0 <= x <= imax w)%Z.
  Proof.
    revert s. induction buf as [|q buf IH]; intros s hb; cbv zeta; cbn [map length seq combine filter mapM]; [split; [reflexivity|intros x []]|].
    assert (hb' : good_buf t buf) by (intros x hx; apply hb; simpl; auto).
    destruct (IH (S s) hb') as [IH1 IH2]. destruct (hb q (or_introl eq_refl)) as (q1 & q2 & q3 & q4).
    destruct (buf_mean_rr t q q1 q2 ltac:(lia) q4) as [e r].
    destruct (negb (s =? a)); cbn [map mapM]; [|auto]. rewrite e. cbn [bind]. rewrite IH1. cbn [bind]. split; [reflexivity|]. intros x [<-|hx]; auto.
  Qed.

  Lemma sil_of_buf_rr buf t a : good_buf t buf ->
    rr (fun s s' => s = MInt s' /\ (Z.abs s' <= 1)%Z) (sil_of_buf_c C (map (emb w) buf) a) (sil_of_buf buf a).
  Proof.
    intros hb. unfold sil_of_buf_c, sil_of_buf, idx. rewrite nth_error_map.
    destruct (nth_error buf a) as [p|] eqn:ep; cbn [option_map bind rr]; [|auto].
    apply nth_error_In in ep. destruct (hb p ep) as (p1 & p2 & p3 & p4).
    destruct (buf_mean_rr t p p1 p2 ltac:(lia) p4) as [ea ra].
    change (fst (emb w p)) with (fst p). destruct (0 <? fst p); cbn [rr]; [|split; [reflexivity|cbn; lia]].
    rewrite ea. cbn [bind]. destruct (means_rr a buf t 0 hb) as [et er]. rewrite <- (map_length (emb w) buf) in et at 1.
    fold (enum (map (emb w) buf)) in et. fold (enum buf) in et, er. rewrite et. cbn [bind]. cbv zeta.
    set (tmp := map (fun '(_, p) => buf_mean p) (filter (fun '(i, _) => negb (i =? a)) (enum buf))) in *.
    set (b := match tmp with [] => lzero | t :: ts => fold_left (fun x y => if lltb y x then y else x) ts t end).
    assert (eb : match map (fun z => MInt z : mint w) tmp with [] => lzero | t :: ts => fold_left (fun x y => if lltb y x then y else x) ts t end = MInt b).
    { unfold b. destruct tmp as [|x ts]; [reflexivity|]. cbn [map]. apply fold_min_mint. }
    rewrite eb.
    assert (rb : (0 <= b <= imax w)%Z).
    { unfold b. destruct tmp as [|x ts]; [cbn; lia|]. apply fold_min_range. auto. }
    clearbody b. generalize dependent (buf_mean p). clear - rb hw hu. intros x _ rx.
    cbn [csub loss_arith debug_sil debug ival]. unfold in_range.
    replace ((- 2 ^ (w - 1) <=? b - x) && (b - x <=? imax w))%Z with true.
    2:{ symmetry. apply andb_true_iff. rewrite !Z.leb_le. unfold imax in *. lia. }
    cbn [bind]. pose proof (ratio_sgn x b (proj1 rx) (proj1 rb)) as hr.
    unfold checked_div_c, checked_div in *. cbn [lltb ldiv lsub lzero NumL_mint NumL_Z ival cdiv debug_sil] in *.
    assert (hc : (if (b <? x)%Z then MInt x else MInt b : mint w) = MInt (if (b <? x)%Z then x else b)) by (destruct (b <? x)%Z; reflexivity).
    rewrite hc. cbn [ival]. destruct (0 <? (if (b <? x)%Z then x else b))%Z eqn:e0.
    - rewrite machine_div_pos by (cbn [lltb lzero NumL_mint ival]; exact e0). cbn [rr ldiv NumL_mint ival].
      rewrite hr. assert (hr1 : (Z.abs ((if b =? 0 then 0 else 1) - (if x =? 0 then 0 else 1)) <= 1)%Z) by (destruct (b =? 0)%Z, (x =? 0)%Z; lia).
      rewrite wrap_id by lia. split; [reflexivity|exact hr1].
    - cbn [rr]. split; [reflexivity|lia].
  Qed.

  Lemma sil_value_rs assi i ai : (safe = true -> length assi <= n) ->
    rs safe (fun s s' => s = MInt s' /\ (Z.abs s' <= 1)%Z)
      (buf <- sil_buf_c C M assi i ;; sil_of_buf_c C buf ai) (buf <- sil_buf (Lt := Z) M assi i ;; sil_of_buf buf ai).
  Proof.
    intros hl. eapply rs_bind; [apply sil_buf_rs; auto|]. intros b b' [-> hb]. right. eapply sil_of_buf_rr; eauto.
  Qed.

  Lemma add_rs x y t : fits x -> (Z.abs x <= Z.of_nat t)%Z -> (Z.abs y <= 1)%Z -> (safe = true -> t < n) ->
    rs safe (fun a z => rv a z /\ (Z.abs z <= Z.of_nat (S t))%Z) (cadd (loss_arith C) (MInt x) (MInt y)) (Ok (x + y)%Z).
  Proof.
    intros h1 h2 h3 hs. cbn [cadd loss_arith debug_sil debug ival].
    destruct (in_range_rs (x + y)%Z) as [h|h].
    - intros h. specialize (hs h). destruct (HB h) as [_ hu']. apply fits_abs. unfold u32_max in hu'. lia.
    - left. exact h.
    - right. destruct (in_range w (x + y)); cbn [rr] in *; [|tauto]. split; [exact h|]. lia.
  Qed.

  Lemma final_rs x assi : fits x -> (safe = true -> 1 <= length assi <= n) ->
    rs safe rv (cdiv C (MInt x) (lfrom_u32 (as_u32 (length assi)))) (Ok (ldiv x (lfrom_u32 (as_u32 (@length nat assi))))).
  Proof.
    intros hx hl. cbn [lfrom_u32 ldiv NumL_mint NumL_Z cdiv debug_sil].
    assert (hc : (as_u32 (length assi) <= 4294967295)%N).
    { unfold as_u32. pose proof (N.mod_lt (N.of_nat (length assi)) 4294967296 ltac:(lia)). lia. }
    rewrite wrap_id by lia. apply div_rs; auto; [lia|]. intros hs. destruct (HB hs) as [_ h2]. specialize (hl hs).
    unfold u32_max in h2. unfold as_u32. rewrite N.mod_small by lia. lia.
  Qed.

  Lemma fits0 : fits 0.
  Proof. apply fits_abs. cbn. lia. Qed.

  Lemma silhouette_rs assi samples : (safe = true -> 1 <= length assi <= n) ->
    rs safe (fun p p' => p = emb_sil w p') (silhouette_c C M assi samples) (silhouette (Lt := Z) M assi samples).
  Proof.
    intros hl. unfold silhouette_c, silhouette. eapply rs_bind; [apply rs_same|]. intros sq sq' [<- _].
    eapply rs_bind; [apply rs_same|]. intros [] [] _.
    eapply rs_bind with (R := fun (s : slst (mint w)) (s' : slst Z) => sl_done s = sl_done s' /\ sl_sum s = MInt (sl_sum s') /\
      fits (sl_sum s') /\ sl_vec s = map (fun z => MInt z : mint w) (sl_vec s')).
    - apply rs_forM with (J := fun t (s : slst (mint w)) (s' : slst Z) => sl_done s = sl_done s' /\ sl_sum s = MInt (sl_sum s') /\
        (Z.abs (sl_sum s') <= Z.of_nat t)%Z /\ fits (sl_sum s') /\ sl_vec s = map (fun z => MInt z : mint w) (sl_vec s')).
      + intros t [i ai] s s' ht (e1 & e2 & e3 & e4 & e5). unfold sil_step_c, sil_step.
        assert (hlt : t < length assi). { rewrite <- (length_enum assi). apply nth_error_Some. congruence. }
        eapply rs_bind; [apply sil_buf_rs; intros h; specialize (hl h); lia|]. intros b b' [-> hb]. rewrite map_length.
        destruct (length b' =? 1); [right; cbn [rr sl_done sl_sum sl_vec]; auto|].
        eapply rs_bind; [right; eapply sil_of_buf_rr; eauto|]. intros x x' [-> hx].
        eapply rs_bind with (R := fun (v : list (mint w)) (v' : list Z) => v = map (fun z => MInt z : mint w) v').
        * right. rewrite e5. destruct samples; [|cbn; auto]. unfold upd. rewrite map_length. destruct (_ <? _); cbn [rr]; [|auto].
          rewrite map_set_nth. reflexivity.
        * intros v v' ->. rewrite e2. destruct (add_rs (sl_sum s') x' t e4 e3 hx) as [[h1 h2]|h].
          { intros h. specialize (hl h). lia. }
          { rewrite h2. left. auto. }
          right. destruct (cadd (loss_arith C) _ _) as [a|q]; cbn [rr] in h; [|tauto]. destruct h as [[-> hf] ha].
          cbn [bind rr sl_done sl_sum sl_vec]. auto.
      + intros s s' (e1 & e2 & e3 & e4 & e5). auto.
      + cbn [sl_done sl_sum sl_vec]. split; [auto|]. split; [reflexivity|]. split; [cbn; lia|]. split; [apply fits0|].
        generalize (if samples then length assi else 0). intros c. induction c; cbn; [auto|]. f_equal. auto.
    - intros s s' (e1 & e2 & e3 & e4). rewrite e1, e4. destruct (sl_done s'); [right; reflexivity|]. rewrite map_length.
      eapply rs_bind; [apply rs_same|]. intros [] [] _. rewrite e2.
      destruct (final_rs (sl_sum s') assi e3 hl) as [[h1 h2]|h]; [left; rewrite h2; auto|]. right.
      destruct (cdiv C _ _); cbn [rr bind] in *; [|tauto]. destruct h as [-> _]. reflexivity.
  Qed.

  Lemma par_silhouette_rs assi : (safe = true -> 1 <= length assi <= n) ->
    rs safe (fun s s' => s = MInt s') (par_silhouette_c C M assi) (par_silhouette (Lt := Z) M assi).
  Proof.
    intros hl. unfold par_silhouette_c, par_silhouette. eapply rs_bind; [apply rs_same|]. intros sq sq' [<- _].
    eapply rs_bind; [apply rs_same|]. intros [] [] _.
    eapply rs_bind with (R := fun ss ss' => Forall2 (fun s s' => s = MInt s' /\ (Z.abs s' <= 1)%Z) ss ss' /\ (safe = true -> length ss <= n)).
    - pose proof (rs_mapM safe (fun (s : mint w) s' => s = MInt s' /\ (Z.abs s' <= 1)%Z)
        (fun '(i, ai) => buf <- sil_buf_c C M assi i ;; sil_of_buf_c C buf ai)
        (fun '(i, ai) => buf <- sil_buf (Lt := Z) M assi i ;; sil_of_buf buf ai) (enum assi)) as h.
      destruct h as [h|h].
      + intros [i ai] _. apply sil_value_rs. intros h. specialize (hl h). lia.
      + left. exact h.
      + right. destruct (mapM _ _) as [ss|p] eqn:e1; destruct (mapM (fun '(i, ai) => buf <- sil_buf (Lt := Z) M assi i ;; _) _) as [ss'|p']; cbn [rr] in *; auto.
        split; [exact h|]. intros hs. apply mapM_length in e1. rewrite length_enum in e1. specialize (hl hs). lia.
    - intros ss ss' [h hs].
      change (Ok (ldiv (fold_left ladd ss' lzero) (lfrom_u32 (as_u32 (length assi))))) with
        (x <- Ok (fold_left ladd ss' lzero) ;; Ok (ldiv x (lfrom_u32 (as_u32 (length assi))))).
      eapply rs_bind with (R := fun a z => rv a z).
      + rewrite <- foldM_ok_fold. 
        assert (g : forall t x, Forall2 (fun (s : mint w) s' => s = MInt s' /\ (Z.abs s' <= 1)%Z) ss ss' -> (safe = true -> t + length ss <= n) ->
          fits x -> (Z.abs x <= Z.of_nat t)%Z ->
          rs safe rv (foldM (cadd (loss_arith C)) ss (MInt x)) (foldM (fun s x => Ok (ladd s x)) ss' x)).
        { clear h hs. intros t x h. revert t x. induction h as [|s s' ss ss' [-> h1] h IH]; intros t x hs hf ha; cbn [foldM].
          - right. cbn. split; auto.
          - cbn [length] in hs. eapply rs_bind; [apply add_rs with (t := t); auto; intros e; specialize (hs e); lia|].
            intros a z [[-> hz] hz2]. apply (IH (S t)); auto. intros e. specialize (hs e). lia. }
        apply (g 0); auto; [apply fits0|cbn; lia].
      + intros a z [-> hz]. destruct (final_rs z assi hz hl) as [h1|h1]; [left; exact h1|]. right.
        destruct (cdiv C _ _); cbn [rr] in *; [|tauto]. apply h1.
  Qed.

  (** ** medoid_silhouette *)
  Lemma medoid_silhouette_rs med samples : (safe = true -> 1 <= n) ->
    rs safe (fun p p' => p = emb_sil w p') (medoid_silhouette_c C M med samples) (medoid_silhouette (Lt := Z) M med samples).
  Proof.
    intros hn. unfold medoid_silhouette_c, medoid_silhouette. eapply rs_bind; [apply rs_same|]. intros sq sq' [<- _].
    eapply rs_bind; [apply rs_same|]. intros [] [] _. eapply rs_bind; [apply rs_same|]. intros [] [] [_ hnu].
    assert (hnu' : (N.of_nat n <= u32_max)%N).
    { unfold assertb in hnu. destruct (N.leb_spec (N.of_nat n) u32_max); [auto|discriminate]. }
    assert (erep : repeat (lone : mint w) (if samples then n else 0) = map (fun z => MInt z : mint w) (repeat lone (if samples then n else 0))).
    { generalize (if samples then n else 0). intros c. induction c; cbn; [auto|]. f_equal. auto. }
    cbv zeta. destruct (length med =? 1); [right; cbn [rr]; unfold emb_sil; cbn [fst snd]; rewrite erep; reflexivity|].
    eapply rs_bind; [apply rs_same|]. intros [] [] _.
    eapply rs_bind with (R := fun (p : mint w * list (mint w)) (p' : Z * list Z) => p = emb_sil w p' /\ (0 <= fst p' <= Z.of_nat n)%Z).
    - eapply rs_mono; [apply rs_foldM with (J := fun t (p : mint w * list (mint w)) (p' : Z * list Z) => p = emb_sil w p' /\ (0 <= fst p' <= Z.of_nat t)%Z)|].
      + intros t i p [l v] ht [-> hl]. unfold emb_sil. cbn [fst snd] in *. unfold ms_step_c, ms_step.
        assert (htn : t < n). { assert (h : t < length (seq 0 n)) by (apply nth_error_Some; congruence). rewrite seq_length in h. auto. }
        eapply rs_bind; [apply rs_same|]. intros best best' [<- eb]. apply (ms_best_range M m) in eb; [|exact Hget].
        destruct (negb (nis_zero (fst best))) eqn:ez; [|right; cbn [rr fst snd]; split; [reflexivity|lia]].
        cbn [nis_zero NumN_Z] in ez. apply Bool.negb_true_iff, Z.eqb_neq in ez. cbv zeta.
        rewrite (from_rv (fst best)), (from_rv (snd best)) by lia.
        change (ldiv (lfrom (fst best)) (lfrom (snd best))) with (Z.quot (fst best) (snd best)).
        assert (hq : (0 <= Z.quot (fst best) (snd best) <= 1)%Z).
        { rewrite Z.quot_div_nonneg by lia. split; [apply Z.div_pos; lia|apply Z.div_le_upper_bound; lia]. }
        cbn [cdiv debug_sil]. rewrite machine_div_pos by (cbn [lltb lzero NumL_mint ival]; apply Z.ltb_lt; lia).
        cbn [bind ldiv NumL_mint ival]. rewrite wrap_id by lia. set (q := Z.quot (fst best) (snd best)) in *.
        cbn [csub cadd loss_arith debug_sil debug ival]. unfold u32_max in hnu'.
        assert (er : forall z, (Z.abs z <= imax w)%Z -> in_range w z = Ok (MInt z)).
        { intros z hz. unfold in_range, imax in *. destruct (_ && _)%bool eqn:e; auto. apply andb_false_iff in e as [e|e]; apply Z.leb_gt in e; lia. }
        rewrite (er (l + q)%Z) by lia.
        change (ival (lone : mint w)) with 1%Z. rewrite (er (1 - q)%Z) by lia. cbn [bind].
        right. destruct samples; [|cbn [bind rr fst snd ladd NumL_Z]; split; [reflexivity|lia]].
        unfold upd. rewrite map_length. destruct (i <? length v); cbn [bind rr fst snd ladd lsub lone NumL_Z]; [|auto].
        split; [rewrite map_set_nth; reflexivity|lia].
      + cbn [fst]. split; [unfold emb_sil; cbn [fst snd]; rewrite erep; reflexivity|cbn; lia].
      + cbv beta. rewrite seq_length. auto.
    - intros p [l v] [-> hl]. unfold emb_sil. cbn [fst snd] in *.
      pose proof (final_rs l (repeat 0 n)) as hf. rewrite repeat_length in hf.
      destruct hf as [[h1 h2]|h]; [apply fits_abs; unfold u32_max in hnu'; lia|intros e; specialize (hn e); lia|left; rewrite h2; auto|].
      destruct (cdiv C (MInt l) (lfrom_u32 (as_u32 n))) as [z|] eqn:ec; cbn [rr] in h; [|tauto]. destruct h as [-> hz].
      cbn [bind csub loss_arith debug_sil debug]. set (y := ldiv l (lfrom_u32 (as_u32 n))) in *. cbn [ival].
      assert (hy : (0 <= y <= 1)%Z).
      { unfold y. cbn [ldiv lfrom_u32 NumL_Z]. unfold as_u32, u32_max in *. rewrite N.mod_small by lia.
        destruct (Nat.eq_dec n 0) as [->|h0]; [cbn; destruct l; cbn; lia|].
        rewrite nat_N_Z, Z.quot_div_nonneg by lia. split; [apply Z.div_pos; lia|apply Z.div_le_upper_bound; lia]. }
      change (ival (lone : mint w)) with 1%Z. unfold in_range.
      replace ((- 2 ^ (w - 1) <=? 1 - y) && (1 - y <=? imax w))%Z with true.
      2:{ symmetry. apply andb_true_iff. rewrite !Z.leb_le. unfold imax in *. lia. }
      right. cbn [bind rr]. reflexivity.
  Qed.

  (** ** pamsil *)
  Let okz := okd (Lt := mint w) (Nt := Z) m int_rep.
  Lemma okz_in d : (0 <= d <= m)%Z -> okz d.
  Proof. intros h. split; [exact h|]. unfold int_rep. cbn. apply wrap_id; lia. Qed.
  Lemma okz_mget x y d : mget M x y = Ok d -> okz d.
  Proof. intros h. apply okz_in. eauto. Qed.
  Lemma okz_0 : okz nzero.
  Proof. apply okz_in. cbn. lia. Qed.

  Lemma rs_of {A A'} (R : A -> A' -> Prop) x z y : (safe = true -> rr R x y) -> rle x z -> rr R z y -> rs safe R x y.
  Proof. intros h1 [->| ->] h2; [|right; auto]. destruct safe; [right; auto|left; auto]. Qed.

  Let B := (3 * Z.of_nat n * m)%Z.
  Let HU := Repr_unb w B.
  Let hwr := Repr_mint hw.
  Let hck := debug_checks w.

  Lemma unb_add (a b : mint w) : rle (cadd (debug w) a b) (Ok (@ladd _ (NumL_unb w) a b)).
  Proof. apply in_range_rle. Qed.
  Lemma unb_sub (a b : mint w) : rle (csub (debug w) a b) (Ok (@lsub _ (NumL_unb w) a b)).
  Proof. apply in_range_rle. Qed.
  Lemma unb_neg (a : mint w) : rle (cneg (debug w) a) (Ok (@lneg _ (NumL_unb w) a)).
  Proof. apply in_range_rle. Qed.

  Lemma an_rs med : rs safe (fun p p' => snd p = snd p' /\ length (snd p) = n)
    (assign_nearest_c (loss_arith C) M med) (assign_nearest (Lt := Z) M med).
  Proof.
    apply rs_of with (z := @assign_nearest _ _ _ (NumL_unb w) _ M med).
    - intros hs. destruct (HB hs) as [hb _].
      eapply rr_mono; [eapply BoundedChk.assign_nearest_rr; [exact hwr|exact hck|exact okz_mget|exact okz_0|exact hb]|].
      intros p p' (h1 & h2 & _). auto.
    - apply (@rle_assign_nearest _ _ _ (NumL_unb w) _ (debug w) M unb_add).
    - eapply rr_mono; [eapply (@Bounded.assign_nearest_rr _ _ _ (NumL_unb w)); [exact HU|exact okz_mget|exact okz_0|apply Z.le_refl]|].
      intros p p' (h1 & h2 & _). auto.
  Qed.

  Lemma choose_rs assi med : length assi <= n ->
    rs safe (fun p p' => fst p = fst p' /\ snd p = MInt (snd p'))
      (choose_c (loss_arith C) M assi med 0) (choose_medoid_within_partition (Lt := Z) M assi med 0).
  Proof.
    intros hl. apply rs_of with (z := @choose_medoid_within_partition _ _ (NumL_unb w) _ M assi med 0).
    - intros hs. destruct (HB hs) as [hb _].
      eapply rr_mono; [eapply BoundedChk.choose_rr; [exact hwr|exact hck|exact okz_mget|exact okz_0|exact hb|exact hl]|].
      intros p p' [h1 h2]. apply bd_mi in h2. auto.
    - apply (@rle_choose _ _ (NumL_unb w) _ (debug w) M unb_add).
    - eapply rr_mono; [eapply (@Bounded.choose_rr _ _ _ (NumL_unb w)); [exact HU|exact okz_mget|exact okz_0|apply Z.le_refl|exact hl]|].
      intros p p' [h1 h2]. apply bd_mi in h2. auto.
  Qed.

  Lemma build_first_rs k : rs safe (fun p p' => snd p = snd p' /\ fst p = MInt (fst p'))
      (build_first_c (loss_arith C) M k) (build_first (Lt := Z) M k).
  Proof.
    apply rs_of with (z := @build_first _ _ (NumL_unb w) _ M k).
    - intros hs. destruct (HB hs) as [hb _].
      eapply rr_mono; [eapply BoundedChk.build_first_rr; [exact hwr|exact hck|exact okz_mget|exact okz_0|exact hb]|].
      intros p p' [h1 h2]. apply bd_mi in h2. auto.
    - unfold build_first_c, build_first. apply rle_foldM. intros q i. apply rle_bind; [|intros; apply rle_refl].
      apply (@rle_build_first_sum _ _ (NumL_unb w) _ (debug w) M unb_add).
    - eapply rr_mono; [eapply (@Bounded.build_first_rr _ _ _ (NumL_unb w)); [exact HU|exact okz_mget|exact okz_0|apply Z.le_refl]|].
      intros p p' [h1 h2]. apply bd_mi in h2. auto.
  Qed.

  Lemma build_next_rs k dn cands : length dn = n -> Forall okz dn ->
    rs safe (fun p p' => snd p = snd p' /\ fst p = MInt (fst p'))
      (build_next_c (loss_arith C) M k dn cands) (build_next (Lt := Z) M k dn cands).
  Proof.
    intros h1 h2. apply rs_of with (z := @build_next _ _ _ (NumL_unb w) _ M k dn cands).
    - intros hs. destruct (HB hs) as [hb _].
      eapply rr_mono; [eapply BoundedChk.build_next_rr; [exact hwr|exact hck|exact okz_mget|exact okz_0|exact hb|exact h1|exact h2]|].
      intros p p' [q1 q2]. apply bd_mi in q2. auto.
    - unfold build_next_c, build_next. apply rle_foldM. intros q i. apply rle_bind; [|intros; apply rle_refl].
      apply (@rle_build_next_sum _ _ _ (NumL_unb w) _ (debug w) M unb_add unb_sub unb_neg).
    - eapply rr_mono; [eapply (@Bounded.build_next_rr _ _ _ (NumL_unb w)); [exact HU|exact okz_mget|exact okz_0|apply Z.le_refl|exact h1|exact h2]|].
      intros p p' [q1 q2]. apply bd_mi in q2. auto.
  Qed.

  Lemma build_loss_rs b data : length data = n -> Forall okz data ->
    (safe = false /\ pamsil_build_loss_c C b data = Panic P_overflow) \/ exists x, pamsil_build_loss_c C b data = Ok x.
  Proof.
    intros hl ho. unfold pamsil_build_loss_c.
    assert (g : forall l t x, (forall p, In p l -> okz (snd p)) -> (safe = true -> t + length l <= n) -> fits x -> (0 <= x <= Z.of_nat t * m)%Z ->
      (safe = false /\ foldM (fun s '(j, d) => if j =? b then Ok s else cadd (loss_arith C) s (lfrom d)) l (MInt x) = Panic P_overflow) \/
      exists y, foldM (fun s '(j, d) => if j =? b then Ok s else cadd (loss_arith C) s (lfrom d)) l (MInt x) = Ok y).
    { induction l as [|[j d] l IH]; intros t x hp hs hf hx; cbn [foldM]; [right; eauto|]. cbn [length] in hs.
      destruct (hp (j, d) (or_introl eq_refl)) as [hd _]. cbn [lfrom FromN_Z_Z snd] in hd.
      destruct (j =? b); cbn [bind].
      - apply IH with (t := S t); auto; [intros; apply hp; simpl; auto|intros e; specialize (hs e); lia|nia].
      - rewrite (from_rv d) by exact hd. cbn [cadd loss_arith debug_sil debug ival].
        destruct (in_range_rs (x + d)%Z) as [[h1 h2]|h].
        + intros e. specialize (hs e). destruct (HB e) as [hb _]. apply fits_abs. nia.
        + left. rewrite h2. auto.
        + destruct (in_range w (x + d)); cbn [rr] in h; [|tauto]. destruct h as [-> h]. cbn [bind].
          apply IH with (t := S t); auto; [intros; apply hp; simpl; auto|intros e; specialize (hs e); lia|nia]. }
    apply (g (enum data) 0 0%Z).
    - intros [j y] hp. cbn [snd]. rewrite Forall_forall in ho. apply ho. apply In_enum in hp. eapply nth_error_In; eauto.
    - intros _. rewrite length_enum. lia.
    - apply fits0.
    - lia.
  Qed.

  Lemma upd_obj_okz bj p d : okz (snd p) -> pamsil_upd_obj M bj p = Ok d -> okz d.
  Proof.
    destruct p as [j x]. cbn [snd]. intros hx. unfold pamsil_upd_obj. destruct (j =? bj).
    - intros h. injection h as <-. apply okz_0.
    - intros h. apply bind_ok in h as (y & e & h). injection h as <-. apply okz_mget in e. destruct (y <? x)%Z; auto.
  Qed.

  Definition pb_rel (s s' : list nat * list Z) : Prop := s = s' /\ length (snd s) = n /\ Forall okz (snd s).

  Lemma pb_step_rs k s s' t : pb_rel s s' ->
    rs safe pb_rel (pamsil_build_step_c C M k s t) (pamsil_build_step (Lt := Z) M k s' t).
  Proof.
    intros (<- & hl & ho). destruct s as [meds data]. cbn [snd] in *. unfold pamsil_build_step_c, pamsil_build_step.
    eapply rs_bind; [apply build_next_rs; auto|]. intros [x b] [x' b'] [e ->]. cbn [fst snd] in *. subst b'.
    change (lleb (MInt x' : mint w) lzero) with (lleb x' (lzero : Z)).
    eapply rs_bind; [apply rs_same|]. intros [] [] _. eapply rs_bind; [apply rs_same|]. intros d d' [<- em].
    assert (hl' : length d = n). { apply mapM_length in em. rewrite length_enum in em. congruence. }
    assert (g : forall l d, (forall p, In p l -> okz (snd p)) -> mapM (pamsil_upd_obj M b) l = Ok d -> Forall okz d).
    { induction l as [|p l IH]; intros dd hp e; cbn [mapM] in e; [injection e as <-; auto|].
      apply bind_ok in e as (y & e1 & e). apply bind_ok in e as (ys & e2 & e). injection e as <-.
      constructor; [eapply upd_obj_okz; [|exact e1]; apply hp; simpl; auto|apply IH; auto; intros; apply hp; simpl; auto]. }
    assert (ho' : Forall okz d).
    { apply (g (enum data)); auto. intros [j y] hp. cbn [snd]. rewrite Forall_forall in ho. apply ho.
      apply In_enum in hp. eapply nth_error_In; eauto. }
    destruct (build_loss_rs b d hl' ho') as [[h1 h2]|[y h2]]; rewrite h2; [left; auto|]. right. cbn [bind rr].
    split; [reflexivity|]. auto.
  Qed.

  Lemma pb_init_rs k : rs safe eq (pamsil_build_initialize_c C M k) (pamsil_build_initialize (Lt := Z) M k).
  Proof.
    unfold pamsil_build_initialize_c, pamsil_build_initialize. eapply rs_bind; [apply build_first_rs|].
    intros [x b] [x' b'] [e _]. cbn [fst snd] in *. subst b'. eapply rs_bind; [apply rs_same|]. intros d d' [<- em].
    eapply rs_bind.
    - apply rs_foldM with (J := fun _ => pb_rel); [intros t a s s' _; apply pb_step_rs|].
      split; [reflexivity|]. cbn [snd]. split; [apply mapM_length in em; rewrite seq_length in em; congruence|].
      assert (g : forall l d, mapM (fun j => mget M j b) l = Ok d -> Forall okz d).
      { induction l as [|p l IH]; intros dd e; cbn [mapM] in e; [injection e as <-; auto|].
        apply bind_ok in e as (y & e1 & e). apply bind_ok in e as (ys & e2 & e). injection e as <-.
        constructor; [eapply okz_mget; eauto|auto]. }
      eapply g; eauto.
    - intros [a b1] [a' b1'] (e & _). injection e as <- <-. right. reflexivity.
  Qed.

  Hypothesis hn1 : safe = true -> 1 <= n.

  Lemma cand_rs q mq s s' j : ps_same w s s' -> rs safe (ps_same w) (pamsil_cand_c C M q mq s j) (pamsil_cand M q mq s' j).
  Proof.
    intros h. pose proof h as (e1 & e2 & e3 & e4). unfold pamsil_cand_c, pamsil_cand. destruct (j =? mq); [right; exact h|].
    rewrite e1, e2. eapply rs_bind; [apply rs_same|]. intros aj aj' [<- _]. eapply rs_bind; [apply rs_same|]. intros mj mj' [<- _].
    destruct (j =? mj); [right; exact h|]. eapply rs_bind; [apply rs_same|]. intros med med' [<- _].
    eapply rs_bind; [apply an_rs|]. intros [l a] [l' a'] [ea hl]. cbn [snd] in *. subst a'.
    eapply rs_bind; [apply silhouette_rs; intros e; specialize (hn1 e); lia|]. intros [x v] [x' v'] ex.
    unfold emb_sil in ex. injection ex as -> _. cbn [fst snd] in *.
    assert (el : lleb (MInt x' : mint w) (fst (ps_best s)) = lleb x' (fst (ps_best s'))) by (rewrite e3; reflexivity).
    rewrite el. right. destruct (lleb x' (fst (ps_best s'))); cbn [rr]; repeat split; auto.
  Qed.

  Lemma pos_rs s s' q : ps_same w s s' -> rs safe (ps_same w) (pamsil_pos_c C M s q) (pamsil_pos M s' q).
  Proof.
    intros h. unfold pamsil_pos_c, pamsil_pos. pose proof h as (e1 & e2 & e3 & e4). rewrite e1.
    eapply rs_bind; [apply rs_same|]. intros mq mq' [<- _]. eapply rs_bind.
    - apply rs_foldM with (J := fun _ => ps_same w); [intros t j a a' _; apply cand_rs|exact h].
    - intros a a' (f1 & f2 & f3 & f4). rewrite f1. eapply rs_bind; [apply rs_same|]. intros md md' [<- _].
      right. cbn [rr]. repeat split; auto.
  Qed.

  Lemma iteration_rs s s' : pl_same w s s' -> rs safe (rc (pl_same w)) (pamsil_iteration_c C M s) (pamsil_iteration M s').
  Proof.
    intros (e1 & e2 & e3 & e4 & e5). unfold pamsil_iteration_c, pamsil_iteration. rewrite e1, e2, e4, e5.
    eapply rs_bind.
    - apply rs_foldM with (J := fun _ => ps_same w); [intros t j a a' _; apply pos_rs|]. repeat split.
    - intros a a' (f1 & f2 & f3 & f4).
      assert (el : lleb (fst (ps_best a)) (pl_sil s) = lleb (fst (ps_best a')) (pl_sil s')) by (rewrite f3, e3; reflexivity).
      rewrite el, f1, f2, f4. right. destruct (lleb (fst (ps_best a')) (pl_sil s')); cbn [rr rc]; [repeat split; auto|].
      destruct (snd (ps_best a')) as [[b j]|]; cbn [rr]; [|auto].
      destruct (upd (ps_med a') b j); cbn [bind rr rc]; [|auto]. repeat split; auto.
  Qed.

  Lemma optimize_rs med assi maxiter : length assi = n ->
    rs safe (fun r r' => r = emb_res w r') (pamsil_optimize_c C M med assi maxiter) (pamsil_optimize (Lt := Z) M med assi maxiter).
  Proof.
    intros hl. unfold pamsil_optimize_c, pamsil_optimize. destruct (length med =? 1).
    - eapply rs_bind; [apply choose_rs; lia|]. intros [[md c] x] [[md' c'] x'] [e ex]. cbn [fst snd] in *. subst x. injection e as -> ->.
      right. reflexivity.
    - eapply rs_bind; [apply silhouette_rs; intros e; specialize (hn1 e); lia|]. intros [x v] [x' v'] ex.
      unfold emb_sil in ex. injection ex as -> _. cbn [fst].
      eapply rs_bind; [apply rs_whileM with (R := pl_same w); [apply iteration_rs|repeat split]|].
      intros s s' (e1 & e2 & e3 & e4 & e5). rewrite e1, e3, e4, e5. eapply rs_bind; [apply an_rs|].
      intros [l a] [l' a'] [ea _]. cbn [snd] in ea. subst a'. right. reflexivity.
  Qed.

  Lemma pamsil_rs k maxiter : rs safe (fun r r' => r = emb_res w r') (pamsil_c C M k maxiter) (pamsil (Lt := Z) M k maxiter).
  Proof.
    unfold pamsil_c, pamsil. eapply rs_bind; [apply rs_same|]. intros [] [] _. eapply rs_bind; [apply pb_init_rs|].
    intros meds meds' <-. apply optimize_rs. apply repeat_length.
  Qed.

  Lemma pamsil_swap_rs med maxiter : rs safe (fun r r' => r = emb_res w r') (pamsil_swap_c C M med maxiter) (pamsil_swap (Lt := Z) M med maxiter).
  Proof.
    unfold pamsil_swap_c, pamsil_swap. eapply rs_bind; [apply an_rs|]. intros [l a] [l' a'] [ea hl]. cbn [snd] in *. subst a'.
    apply optimize_rs. auto.
  Qed.
End Exact.

(** a panic of the other run, or the same result *)
Definition sil_outcome {w} (x : res (mint w * list (mint w))) (y : res (Z * list Z)) : Prop :=
  match x, y with
  | Ok (v, vec), Ok (vz, vecz) => ival v = vz /\ map ival vec = vecz
  | Panic p, Panic q => p = q
  | _, _ => False
  end.
Definition value_outcome {w} (x : res (mint w)) (y : res Z) : Prop :=
  match x, y with Ok v, Ok vz => ival v = vz | Panic p, Panic q => p = q | _, _ => False end.

Lemma sil_outcome_rr w x y : rr (fun p p' => p = emb_sil w p') x y -> sil_outcome x y.
Proof.
  destruct x as [[v vec]|p], y as [[vz vecz]|q]; cbn; auto. unfold emb_sil. cbn [fst snd]. intros h. injection h as -> ->.
  split; [reflexivity|]. rewrite map_map. cbn. apply map_id.
Qed.
Lemma value_outcome_rr w (x : res (mint w)) y : rr (fun s s' => s = MInt s') x y -> value_outcome x y.
Proof. destruct x, y; cbn; auto. intros ->. reflexivity. Qed.
Lemma res_outcome_rr w x y : rr (fun r r' => r = emb_res w r') x y -> same_outcome x y.
Proof. destruct x as [r|p], y as [r'|q]; cbn; auto. intros ->. cbn. repeat split. Qed.

(** C85.  Whatever the clustering, a build with overflow checks panics with an arithmetic panic or gives the results of
    unbounded integers: no wrong silhouette due to an overflow gets through. *)
Theorem C85_exact_or_panic (w m : Z) (M : Mat Z) : (1 <= w)%Z -> (4294967295 <= imax w)%Z ->
  (forall x y d, mget M x y = Ok d -> (0 <= d <= m)%Z) -> (0 <= m <= imax w)%Z ->
  (forall assi samples, silhouette_c (debug_sil w) M assi samples = Panic P_overflow \/
     sil_outcome (silhouette_c (debug_sil w) M assi samples) (silhouette M assi samples)) /\
  (forall assi, par_silhouette_c (debug_sil w) M assi = Panic P_overflow \/
     value_outcome (par_silhouette_c (debug_sil w) M assi) (par_silhouette M assi)) /\
  (forall med samples, medoid_silhouette_c (debug_sil w) M med samples = Panic P_overflow \/
     sil_outcome (medoid_silhouette_c (debug_sil w) M med samples) (medoid_silhouette M med samples)) /\
  (forall med maxiter, pamsil_swap_c (debug_sil w) M med maxiter = Panic P_overflow \/
     same_outcome (pamsil_swap_c (debug_sil w) M med maxiter) (pamsil_swap M med maxiter)) /\
  (forall k maxiter, pamsil_c (debug_sil w) M k maxiter = Panic P_overflow \/
     same_outcome (pamsil_c (debug_sil w) M k maxiter) (pamsil M k maxiter)).
Proof.
  intros hw hu hg hm.
  assert (hf : forall P : Prop, false = true -> P) by (intros; discriminate).
  split; [|split; [|split; [|split]]]; intros.
  - destruct (silhouette_rs w M m false hw hg hm hu (hf _) assi samples (hf _)) as [[_ h]|h]; [left; exact h|right; apply sil_outcome_rr; exact h].
  - destruct (par_silhouette_rs w M m false hw hg hm hu (hf _) assi (hf _)) as [[_ h]|h]; [left; exact h|right; apply value_outcome_rr; exact h].
  - destruct (medoid_silhouette_rs w M m false hw hg hm hu (hf _) med samples (hf _)) as [[_ h]|h]; [left; exact h|right; apply sil_outcome_rr; exact h].
  - destruct (pamsil_swap_rs w M m false hw hg hm hu (hf _) (hf _) med maxiter) as [[_ h]|h]; [left; exact h|right; apply res_outcome_rr; exact h].
  - destruct (pamsil_rs w M m false hw hg hm hu (hf _) (hf _) k maxiter) as [[_ h]|h]; [left; exact h|right; apply res_outcome_rr; exact h].
Qed.
Print Assumptions C85_exact_or_panic.
(** the matrix of Ex.v, losses of type [i64] *)
Definition C85_exact_case := C85_exact_or_panic 64 7 m6 ltac:(lia) (Zle_bool_imp_le 4294967295 (imax 64) eq_refl) m6_get
  (conj (Zle_bool_imp_le 0 7 eq_refl) (Zle_bool_imp_le 7 (imax 64) eq_refl)).

(** C85.  If three times the number of objects times the largest dissimilarity is in range, there is no arithmetic
    panic: the outcome is always that of unbounded integers. *)
Theorem C85_no_overflow (w m : Z) (M : Mat Z) : (1 <= w)%Z -> (4294967295 <= imax w)%Z ->
  (forall x y d, mget M x y = Ok d -> (0 <= d <= m)%Z) -> (0 <= m <= imax w)%Z ->
  1 <= mlen M -> (N.of_nat (mlen M) <= 4294967295)%N -> (3 * Z.of_nat (mlen M) * m <= imax w)%Z ->
  (forall assi samples, 1 <= length assi <= mlen M ->
     sil_outcome (silhouette_c (debug_sil w) M assi samples) (silhouette M assi samples)) /\
  (forall assi, 1 <= length assi <= mlen M -> value_outcome (par_silhouette_c (debug_sil w) M assi) (par_silhouette M assi)) /\
  (forall med samples, sil_outcome (medoid_silhouette_c (debug_sil w) M med samples) (medoid_silhouette M med samples)) /\
  (forall med maxiter, same_outcome (pamsil_swap_c (debug_sil w) M med maxiter) (pamsil_swap M med maxiter)) /\
  (forall k maxiter, same_outcome (pamsil_c (debug_sil w) M k maxiter) (pamsil M k maxiter)).
Proof.
  intros hw hu hg hm hn hnu hb.
  assert (hB : true = true -> (3 * Z.of_nat (mlen M) * m <= imax w)%Z /\ (N.of_nat (mlen M) <= u32_max)%N) by auto.
  split; [|split; [|split; [|split]]].
  - intros assi samples hl. destruct (silhouette_rs w M m true hw hg hm hu hB assi samples (fun _ => hl)) as [[h _]|h]; [discriminate|apply sil_outcome_rr; exact h].
  - intros assi hl. destruct (par_silhouette_rs w M m true hw hg hm hu hB assi (fun _ => hl)) as [[h _]|h]; [discriminate|apply value_outcome_rr; exact h].
  - intros med samples. destruct (medoid_silhouette_rs w M m true hw hg hm hu hB med samples (fun _ => hn)) as [[h _]|h]; [discriminate|apply sil_outcome_rr; exact h].
  - intros med maxiter. destruct (pamsil_swap_rs w M m true hw hg hm hu hB (fun _ => hn) med maxiter) as [[h _]|h]; [discriminate|apply res_outcome_rr; exact h].
  - intros k maxiter. destruct (pamsil_rs w M m true hw hg hm hu hB (fun _ => hn) k maxiter) as [[h _]|h]; [discriminate|apply res_outcome_rr; exact h].
Qed.
Print Assumptions C85_no_overflow.
(** the matrix of Ex.v, losses of type [i64] *)
Definition C85_case := C85_no_overflow 64 7 m6 ltac:(lia) (Zle_bool_imp_le 4294967295 (imax 64) eq_refl) m6_get
  (conj (Zle_bool_imp_le 0 7 eq_refl) (Zle_bool_imp_le 7 (imax 64) eq_refl)) ltac:(cbn; lia) ltac:(vm_compute; discriminate)
  (Zle_bool_imp_le (3 * 6 * 7) (imax 64) eq_refl).
Example C85_values :
  pamsil_c (debug_sil 64) m5 2 10 = Ok (mkPR (MInt 0) [0; 0; 0; 1; 1] 1 0 [0; 3]) /\
  medoid_silhouette_c (debug_sil 64) m6 [0; 1; 3] false = Ok (MInt 1, []) /\
  silhouette_c (debug_sil 64) m6 [] true = Panic P_overflow /\
  silhouette_c (debug_sil 64) m6 [0; 0; 1; 1; 1; 0] false = Ok (MInt 0, []).
Proof. split; [|split; [|split]]; vm_compute; reflexivity. Qed.

(** Without the bound it may panic although all dissimilarities fit into the type: the matrix of C84, [i64], on which
    the release build returns the impossible silhouette 2. *)
Theorem C85_overflow_refuted : exists (M : Mat Z) D, diss_matrix M 4 D /\ symmetric 4 (vals D) /\
  (forall x y, x < 4 -> y < 4 -> (D x y <= 2 ^ 63 - 1)%Z) /\
  silhouette_c (debug_sil 64) M [0; 0; 0; 1] false = Panic P_overflow /\
  silhouette_c (release_sil 64) M [0; 0; 0; 1] false = Ok (MInt 2, []) /\
  silhouette (Lt := Z) M [0; 0; 0; 1] false = Ok (0%Z, []).
Proof.
  exists (mat_of_rows rows_big), (entries rows_big).
  split; [apply rows_diss; [lia|vm_compute; reflexivity]|]. split; [apply rows_sym; vm_compute; reflexivity|].
  split.
  { assert (h : forallb (fun x => forallb (fun y => (entries rows_big x y <=? 2 ^ 63 - 1)%Z) (seq 0 4)) (seq 0 4) = true) by (vm_compute; reflexivity).
    intros x y hx hy. rewrite forallb_forall in h. specialize (h x ltac:(apply in_seq; lia)).
    rewrite forallb_forall in h. specialize (h y ltac:(apply in_seq; lia)). apply Z.leb_le. exact h. }
  split; [vm_compute; reflexivity|]. split; vm_compute; reflexivity.
Qed.
Print Assumptions C85_overflow_refuted.

