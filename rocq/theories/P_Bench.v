(** P_Bench.v -- property C76: the benchmarks benches/bench.rs.  For every outcome of the random number generator the
    matrix is symmetric with positive entries off the diagonal, no [i32] overflows, and the benchmarks compute
    what the functions are meant to compute.  A concrete input stands below each theorem. *)
From Coq Require Import ZArith QArith Lqa Lia Permutation.
From Verif Require Import Base Num M_Mat M_Util M_Fasterpam M_Pam M_Alternating M_ParFasterpam M_Orlib M_Bench Inst Hoare Spec
  SpecFacts Laws ParFacts Bounded BoundedMain OrlibFacts Ex P_Fasterpam P_Pam P_Bounded P_Types.
Open Scope nat_scope.

(** number of the draw for row [x] and column [x + 1] of a matrix of [n] rows, and for row [x] and column [y > x] *)
Fixpoint row_start (n x : nat) : nat := match x with 0 => 0 | S x' => row_start n x' + (n - S x') end.
Definition draw (n x y : nat) : nat := row_start n x + (y - S x).

(** the matrix of the benchmarks: draws off the diagonal, every pair of objects having its own one *)
Definition drawn {w} (n : nat) (gen : nat -> mint w) (D : nat -> nat -> mint w) : Prop := forall x y, x < n -> y < n ->
  ival (D x y) = if x <? y then ival (gen (draw n x y)) else if y <? x then ival (gen (draw n y x)) else 0%Z.

Lemma bench_matrix_ok w (n : nat) (gen : nat -> mint w) :
  oks (bench_matrix n gen) (fun mat => exists D, is_arr mat n D /\ drawn n gen D).
Proof.
  unfold bench_matrix. eapply oks_bind with (P := fun s => exists D, is_arr (fst s) n D /\ drawn n gen D);
    [|intros s h; exact h].
  set (val := fun x y => if x <? y then ival (gen (draw n x y)) else if y <? x then ival (gen (draw n y x)) else 0%Z).
  assert (vsym : forall x y, val x y = val y x).
  { intros x y. unfold val. destruct (Nat.ltb_spec x y), (Nat.ltb_spec y x); try reflexivity; lia. }
  set (I := fun i j (s : Array2 (mint w) * nat) => exists D, is_arr (fst s) n D /\ snd s = row_start n i + (j - S i) /\
    forall x y, x < n -> y < n -> ival (D x y) = if (Nat.min x y <? i) || (Nat.min x y =? i) && (Nat.max x y <? j) then val x y else 0%Z).
  apply oks_mono with (I n (S n)).
  2:{ intros s (D & hD & _ & hv). exists D. split; [exact hD|]. intros x y hx hy. rewrite hv by assumption.
      assert (e : (Nat.min x y <? n) = true) by (apply Nat.ltb_lt; lia). rewrite e. reflexivity. }
  assert (hbeg : forall i s, i < n -> I i n s -> I (S i) (S (S i)) s).
  { intros i s hi (D & hD & hc & hv). exists D. split; [exact hD|]. split; [rewrite hc; cbn [row_start]; lia|].
    intros x y hx hy. rewrite hv by assumption.
    destruct (Nat.ltb_spec (Nat.min x y) i), (Nat.ltb_spec (Nat.min x y) (S i)), (Nat.eqb_spec (Nat.min x y) i),
      (Nat.eqb_spec (Nat.min x y) (S i)), (Nat.ltb_spec (Nat.max x y) n), (Nat.ltb_spec (Nat.max x y) (S (S i))); cbn [orb andb];
      try reflexivity; try lia.
    assert (x = y) by lia. subst y. unfold val. rewrite Nat.ltb_irrefl. reflexivity. }
  assert (hrow : forall i s, i < n -> I i (S i) s -> oks (foldM (bench_cell gen i) (seq (i + 1) (n - (i + 1))) s) (I i n)).
  { intros i s hi hs.
    assert (G : forall len j s, S i <= j -> j + len = n -> I i j s -> oks (foldM (bench_cell gen i) (seq j len) s) (I i n)).
    { clear s hs. induction len as [|len IH]; intros j s hj hl hs.
      - cbn [seq foldM oks]. replace n with j by lia. replace j with n in * by lia. exact hs.
      - cbn [seq foldM]. destruct hs as (D & hD & hc & hv). destruct s as [mat c]. cbn [fst snd] in hD, hc.
        eapply oks_bind with (P := I i (S j)); [|intros s' hs'; apply IH; [lia|lia|exact hs']].
        unfold bench_cell. cbv zeta. eapply oks_bind; [apply (@a_set_ok _ mat n D i j); [exact hD|lia|lia]|].
        intros m1 h1. eapply oks_bind; [apply (@a_set_ok _ m1 n (fset D i j (gen c)) j i); [exact h1|lia|lia]|].
        intros m2 h2. cbn [oks]. eexists. cbn [fst snd]. split; [exact h2|]. split; [rewrite hc; lia|].
        assert (evc : val i j = ival (gen c)).
        { unfold val. assert (e : (i <? j) = true) by (apply Nat.ltb_lt; lia). rewrite e, hc. reflexivity. }
        intros x y hx hy. unfold fset. cbv beta.
        destruct (Nat.eqb_spec x j) as [ex|nx]; destruct (Nat.eqb_spec y i) as [ey|ny]; cbn [andb];
          destruct (Nat.eqb_spec x i) as [ex'|nx']; destruct (Nat.eqb_spec y j) as [ey'|ny']; cbn [andb];
          try (subst x y; lia); subst; try lia.
        all: rewrite ?hv by assumption.
        all: repeat match goal with |- context [(?a <? ?b)] => destruct (Nat.ltb_spec a b) end;
             repeat match goal with |- context [(?a =? ?b)] => destruct (Nat.eqb_spec a b) end; cbn [orb andb];
             try reflexivity; try lia; try (rewrite ?(vsym j i); symmetry; exact evc). }
    apply G; [lia|lia|]. replace (i + 1) with (S i) by lia. exact hs. }
  apply foldM_seq with (I := fun i s => I i (S i) s).
  - exists (fun _ _ => MInt 0). cbn [fst snd row_start]. split; [apply is_arr_repeat|]. split; [lia|]. intros x y hx hy.
    cbn [ival]. destruct (Nat.ltb_spec (Nat.min x y) 0), (Nat.eqb_spec (Nat.min x y) 0), (Nat.ltb_spec (Nat.max x y) 1); cbn [orb andb];
      try reflexivity; try lia. assert (x = y) by lia. subst y. unfold val. rewrite Nat.ltb_irrefl. reflexivity.
  - intros i s hi hs. eapply oks_mono; [apply hrow; assumption|]. intros s' hs'. apply hbeg; assumption.
Qed.

(** what the alternating algorithm gives *)
Definition consistent {Lt} (val : Lt -> Q) (v : diss) (n k : nat) (med : list nat) (r : pam_result Lt) : Prop :=
  medoids n k (r_med r) /\
  length (r_assi r) = n /\ (forall o, o < n -> nearest v o (r_med r) (nth o (r_assi r) 0)) /\
  (val (r_loss r) == tdev v n (r_med r))%Q /\ (val (r_loss r) <= tdev v n med)%Q.

Lemma apart_tdev v n meds : dissimilarity n v -> (forall x y, x < n -> y < n -> x <> y -> (0 < v x y)%Q) ->
  meds <> [] -> (forall m, In m meds -> m < n) -> length meds < n -> (0 < tdev v n meds)%Q.
Proof.
  intros hv hp hne hin hl.
  assert (ex : exists o, o < n /\ ~ In o meds).
  { destruct (Exists_dec (fun o => ~ In o meds) (seq 0 n)) as [h|h].
    - intros o. destruct (in_dec Nat.eq_dec o meds); [right|left]; tauto.
    - apply Exists_exists in h as (o & h1 & h2). apply in_seq in h1. exists o. split; [lia|exact h2].
    - exfalso. assert (hi : incl (seq 0 n) meds).
      { intros o ho. destruct (in_dec Nat.eq_dec o meds) as [|c]; [assumption|]. exfalso. apply h. apply Exists_exists. eauto. }
      apply NoDup_incl_length in hi; [|apply seq_NoDup]. rewrite seq_length in hi. lia. }
  destruct ex as (o & ho & hno).
  assert (h1 : (0 < mindist v o meds)%Q).
  { destruct (@mindist_in v o meds hne) as (m & hm & ->). apply hp; [exact ho|apply hin; exact hm|]. intros ->. contradiction. }
  unfold tdev. rewrite <- (@sumQ_single (mindist v o meds) o n ho) in h1. eapply Qlt_le_trans; [exact h1|].
  apply sumQ_le. intros x hx. apply in_seq in hx.
  destruct (Nat.eqb_spec x o) as [->|ne]; [apply Qle_refl|]. apply mindist_nonneg with n; [exact hv|lia|exact hin].
Qed.

(** C76.  The benchmarks with any loss type which is exact up to [3 * size * 9999], whatever it does beyond. *)
Theorem C76_bench {Lt : Type} `{HL : NumL Lt} `{HF : FromN Z Lt} (B : Z) (rep : Lt -> Z -> Prop) (val : Lt -> Q)
    (size : nat) (gen : nat -> mint 32) order orc :
  BoundLaws (Nt := Z) B rep val -> sizes size 5 -> (3 * Z.of_nat size * 9999 <= B)%Z ->
  (forall c, (1 <= ival (gen c) < 10000)%Z) -> Permutation order (seq 0 size) -> valid_oracle orc ->
  exists mat D, bench_matrix size gen = Ok mat /\ is_matrix (mat_of_array2 mat) size D /\ drawn size gen D /\
    let v := fun x y => inject_Z (ival (D x y)) in
    let opt := exact_optimum val v size 5 100 in
    (exists r : pam_result Lt, bench_fasterpam size gen = Ok r /\ opt [0; 1; 2; 3; 4] r) /\
    (exists r : pam_result Lt, bench_rand_fasterpam size gen order = Ok r /\ opt [0; 1; 2; 3; 4] r) /\
    (exists r : pam_result Lt, bench_par_fasterpam size gen orc order = Ok r /\ opt [0; 1; 2; 3; 4] r) /\
    (exists r : pam_result Lt, bench_fastpam1 size gen = Ok r /\ opt [0; 1; 2; 3; 4] r) /\
    (exists r : pam_result Lt, bench_pam_swap size gen = Ok r /\ opt [0; 1; 2; 3; 4] r) /\
    (exists (loss : Lt) assi meds (r : pam_result Lt), bench_pam_build size gen = Ok (loss, assi, meds) /\
      medoids size 5 meds /\ greedy v size meds /\ (val loss == tdev v size meds)%Q /\
      length assi = size /\ (forall o, o < size -> nearest v o meds (nth o assi 0)) /\
      bench_pam size gen = Ok r /\ opt meds r) /\
    (exists r : pam_result Lt, bench_alternating size gen = Ok r /\ consistent val v size 5 [0; 1; 2; 3; 4] r).
Proof.
  intros HB hs hb hg hp hor.
  destruct (oks_inv _ _ (bench_matrix_ok 32 size gen)) as (mat & e & D & hD & hd).
  exists mat, D. split; [exact e|]. pose proof (proj1 (is_arr_matrix _ _ _) hD) as hM. split; [exact hM|]. split; [exact hd|].
  cbv zeta. unfold bench_fasterpam, bench_rand_fasterpam, bench_par_fasterpam, bench_fastpam1, bench_pam_swap, bench_pam_build,
    bench_pam, bench_alternating, bench_med. rewrite e. cbn [bind].
  destruct (C70_signed (Lt := Lt) 32 (mat_of_array2 mat)) as (q1 & q2 & q3 & q4 & q5 & q6 & q7 & q8 & _).
  rewrite q1, q2, q3, q4, q5, q6, q7, q8. clear q1 q2 q3 q4 q5 q6 q7 q8.
  set (M := mat_map ival (mat_of_array2 mat)). set (DZ := fun x y => ival (D x y)).
  assert (hpos : forall x y, x < size -> y < size -> x <> y -> (1 <= DZ x y <= 9999)%Z).
  { intros x y hx hy ne. unfold DZ. rewrite hd by assumption.
    destruct (Nat.ltb_spec x y); [|destruct (Nat.ltb_spec y x); [|lia]].
    - pose proof (hg (draw size x y)). lia.
    - pose proof (hg (draw size y x)). lia. }
  assert (hdiag : forall x, x < size -> DZ x x = 0%Z).
  { intros x hx. unfold DZ. rewrite hd by assumption. rewrite Nat.ltb_irrefl. reflexivity. }
  assert (hsym : symmetric size (vals DZ)).
  { intros x y hx hy. unfold vals, DZ. cbn [vN OrdLaws_Z]. rewrite !hd by assumption.
    destruct (Nat.ltb_spec x y), (Nat.ltb_spec y x); try reflexivity; lia. }
  assert (hmax : forall x y, x < size -> y < size -> (DZ x y <= 9999)%Z).
  { intros x y hx hy. destruct (Nat.eq_dec x y) as [->|ne]; [rewrite hdiag by assumption; lia|apply hpos; assumption]. }
  assert (hMZ : diss_matrix M size DZ).
  { destruct hM as (hn & hsq & hget). split; [split; [exact hn|split; [exact hsq|]]|split].
    - intros x y hx hy. unfold M, mat_map. cbn [mget]. rewrite (hget x y hx hy). reflexivity.
    - intros x hx. unfold vals. rewrite (hdiag x hx). reflexivity.
    - intros x y hx hy. split; [exact Logic.I|]. unfold vals. cbn [vN OrdLaws_Z]. change 0%Q with (inject_Z 0). rewrite <- Zle_Qle.
      destruct (Nat.eq_dec x y) as [->|ne]; [rewrite hdiag by assumption; lia|]. specialize (hpos x y hx hy ne). lia. }
  assert (hs5 : 5 <= size) by (destruct hs as ((? & ?) & _); lia).
  assert (hme : medoids size 5 [0; 1; 2; 3; 4]).
  { split; [reflexivity|]. split; [repeat constructor; cbn; lia|]. cbn. intros m hm. lia. }
  assert (hk : 2 <= 5 \/ symmetric size (vals DZ)) by (left; lia).
  assert (hin : forall j, In j order -> j < size).
  { intros j hj. apply (Permutation_in _ hp) in hj. apply in_seq in hj. lia. }
  change (fun x y => inject_Z (ival (D x y))) with (vals DZ).
  assert (hn : mlen M = size) by apply hMZ.
  assert (hrand : forall ord, Permutation ord (seq 0 size) -> exists r r' : pam_result Lt, rand_fasterpam M ord [0; 1; 2; 3; 4] 100 = Ok r /\
    exact_optimum val (vals DZ) size 5 100 [0; 1; 2; 3; 4] r /\ par_fasterpam M orc ord [0; 1; 2; 3; 4] 100 = Ok r' /\
    r_med r' = r_med r /\ r_assi r' = r_assi r /\ r_iter r' = r_iter r /\ r_swaps r' = r_swaps r /\
    (val (r_loss r') == val (r_loss r))%Q).
  { intros ord ho. exact (C43_fasterpam B 9999 rep val M size DZ [0; 1; 2; 3; 4] 100 ord orc HB hMZ hmax hb hs hme hk ho hor). }
  destruct (C43_same_run B 9999 rep val M size DZ [0; 1; 2; 3; 4] 100 order orc HB hMZ hmax hb hs (proj2 (proj2 hme)) hin hor)
    as (_ & _ & _ & (r4 & z4 & e4 & f4 & a1 & a2 & a3 & a4 & a5) & (r5 & z5 & e5 & f5 & b1 & b2 & b3 & b4 & b5)
          & (r6 & z6 & e6 & f6 & c1 & c2 & c3 & c4 & c5)).
  assert (hopt : forall meds (r : pam_result Lt) (z : pam_result Z), medoids size 5 meds -> pam_swap (Lt := Z) M meds 100 = Ok z ->
    r_med r = r_med z -> r_assi r = r_assi z -> r_iter r = r_iter z -> r_swaps r = r_swaps z -> (val (r_loss r) == vL (r_loss z))%Q ->
    exact_optimum val (vals DZ) size 5 100 meds r).
  { intros meds r z hmeds ez g1 g2 g3 g4 g5. pose proof (proj1 hmeds) as hl5.
    destruct (C14_steepest_descent (Lt := Z) M size DZ meds 100 hMZ) as (z' & _ & ez' & h1 & h2 & h3 & _ & h5 & h6 & h7 & h8 & _ & _ & _ & h9 & h10 & _).
    - rewrite hl5. exact hs.
    - rewrite hl5. exact hmeds.
    - left. lia.
    - rewrite ez in ez'. injection ez' as <-. rewrite hl5 in h1, h9. unfold exact_optimum. rewrite g1, g2, g3, g4, g5. auto 12. }
  split; [|split; [|split; [|split; [|split; [|split]]]]].
  - destruct (hrand (seq 0 size) (Permutation_refl _)) as (r & r' & er & ho & _). exists r. split; [|exact ho].
    unfold fasterpam. rewrite hn. exact er.
  - destruct (hrand order hp) as (r & r' & er & ho & _). exists r. auto.
  - destruct (hrand order hp) as (r & r' & er & ho & er' & g1 & g2 & g3 & g4 & g5). exists r'. split; [exact er'|].
    unfold exact_optimum in *. rewrite g1, g2, g3, g4, g5. exact ho.
  - exists r4. split; [exact e4|]. apply (hopt _ r4 z5 hme f5).
    all: destruct (C15_fastpam1_is_pam (Lt := Z) M size DZ [0; 1; 2; 3; 4] 100 hMZ hs hme) as (z' & k1 & k2); rewrite f4 in k1; rewrite f5 in k2;
      injection k1 as <-; injection k2 as <-; try assumption. apply (bl_val HB). exact a5.
  - exists r5. split; [exact e5|]. apply (hopt _ r5 z5 hme f5); try assumption. apply (bl_val HB). exact b5.
  - destruct (C43_same_build B 9999 rep val M size DZ 5 100 HB hMZ hmax hb hs)
      as ((r & z & er & ez & g1 & g2 & g3 & g4 & g5) & loss & lossz & assi & meds & eb & ebz & hl).
    destruct (C16_pam_build (Lt := Z) M size DZ 5 hMZ hs) as (l' & a' & ms' & eb' & h1 & h2 & h3 & h4 & h5 & _ & h7 & h8 & h9).
    rewrite ebz in eb'. injection eb' as <- <- <-.
    destruct (C17_pam_is_build_swap (Lt := Z) M size DZ 5 100 hMZ hs) as (y & y' & l2 & a2' & ms2 & k1 & k2 & k3 & k4 & k5 & k6 & k7 & k8 & _).
    rewrite ez in k1. injection k1 as <-. rewrite ebz in k2. injection k2 as <- <- <-.
    assert (hl5 : length meds = 5).
    { destruct (Nat.eq_dec (length meds) 5) as [|ne]; [assumption|exfalso]. assert (hlt : length meds < 5) by lia. specialize (h9 hlt).
      assert (hv : dissimilarity size (vals DZ)).
      { split; [intros x hx; unfold vals; rewrite (hdiag x hx); reflexivity|]. intros x y0 hx hy. apply (proj2 (proj2 hMZ) x y0 hx hy). }
      assert (ht : (0 < tdev (vals DZ) size meds)%Q).
      { apply apart_tdev; [exact hv| | |exact h3|lia].
        - intros x y0 hx hy nxy. unfold vals. cbn [vN OrdLaws_Z]. change 0%Q with (inject_Z 0). rewrite <- Zlt_Qlt. specialize (hpos x y0 hx hy nxy). lia.
        - intros e0. rewrite e0 in h1. cbn in h1. lia. }
      rewrite h5 in h9. lra. }
    assert (hmeds : medoids size 5 meds) by (split; [exact hl5|split; assumption]).
    exists loss, assi, meds, r. split; [exact eb|]. split; [exact hmeds|]. split; [exact h4|].
    split; [rewrite (bl_val HB loss lossz hl); exact h5|]. split; [exact h7|]. split; [exact h8|]. split; [exact er|].
    apply (hopt meds r y' hmeds k3); try congruence. rewrite (bl_val HB _ _ g5). exact k8.
  - exists r6. split; [exact e6|].
    destruct (C18_alternating_consistent (Lt := Z) M size DZ [0; 1; 2; 3; 4] 100 hMZ hs hme) as (z' & k1 & h1 & h2 & h3 & _ & _ & h6 & _).
    destruct (C19_alternating_monotone (Lt := Z) M size DZ [0; 1; 2; 3; 4] 100 hMZ hs hme hsym) as (z'' & k1' & h7 & _).
    rewrite f6 in k1, k1'. injection k1 as <-. injection k1' as <-.
    unfold consistent. rewrite c1, c2, (bl_val HB _ _ c5). auto.
Qed.
Print Assumptions C76_bench.

(** With [i32] losses, as in the benchmarks, nothing overflows up to 71589 objects, in particular with [SIZE = 100]. *)
Theorem C76_i32 (gen : nat -> mint 32) order orc (size : nat) : 5 <= size -> (Z.of_nat size <= 71589)%Z ->
  (forall c, (1 <= ival (gen c) < 10000)%Z) -> Permutation order (seq 0 size) -> valid_oracle orc ->
  exists D, drawn size gen D /\
    let v := fun x y => inject_Z (ival (D x y)) in
    let opt := exact_optimum (fun a => inject_Z (ival a)) v size 5 100 [0; 1; 2; 3; 4] in
    (exists r : pam_result (mint 32), bench_fasterpam size gen = Ok r /\ opt r) /\
    (exists r : pam_result (mint 32), bench_rand_fasterpam size gen order = Ok r /\ opt r) /\
    (exists r : pam_result (mint 32), bench_par_fasterpam size gen orc order = Ok r /\ opt r) /\
    (exists r : pam_result (mint 32), bench_fastpam1 size gen = Ok r /\ opt r) /\
    (exists r : pam_result (mint 32), bench_pam_swap size gen = Ok r /\ opt r) /\
    (exists (loss : mint 32) assi meds, bench_pam_build size gen = Ok (loss, assi, meds) /\ medoids size 5 meds /\
      (inject_Z (ival loss) == tdev v size meds)%Q /\
      exists r : pam_result (mint 32), bench_pam size gen = Ok r /\
        (inject_Z (ival (r_loss r)) == tdev v size (r_med r))%Q /\ (inject_Z (ival (r_loss r)) <= inject_Z (ival loss))%Q) /\
    (exists r : pam_result (mint 32), bench_alternating size gen = Ok r /\
      consistent (fun a => inject_Z (ival a)) v size 5 [0; 1; 2; 3; 4] r).
Proof.
  intros h5 hs hg hp hor.
  assert (hsz : sizes size 5).
  { unfold sizes. split; [lia|]. split; [|reflexivity]. apply N2Z.inj_le. rewrite nat_N_Z. change (Z.of_N 4294967295) with 4294967295%Z. lia. }
  assert (hb : (3 * Z.of_nat size * 9999 <= imax 32)%Z) by (change (imax 32) with 2147483647%Z; lia).
  destruct (C76_bench (imax 32) int_rep (fun a => inject_Z (ival a)) size gen order orc (mint_laws (w := 32) ltac:(lia)) hsz hb hg hp hor)
    as (mat & D & _ & _ & hd & h1 & h2 & h3 & h4 & h5' & (loss & assi & meds & r & e & q1 & _ & q2 & _ & _ & q3 & q4) & h7).
  exists D. split; [exact hd|]. cbv zeta. do 5 (split; [assumption|]). split; [|exact h7].
  exists loss, assi, meds. split; [exact e|]. split; [exact q1|]. split; [exact q2|]. exists r. split; [exact q3|].
  destruct q4 as (_ & _ & _ & _ & q5 & q6 & _). split; [exact q5|]. rewrite q2. exact q6.
Qed.
Print Assumptions C76_i32.

(** a generator, and the benchmarks with it *)
Definition gen0 (c : nat) : mint 32 := MInt (1 + (7919 * Z.of_nat c) mod 9999).
Lemma gen0_range c : (1 <= ival (gen0 c) < 10000)%Z.
Proof. unfold gen0. cbn [ival]. pose proof (Z.mod_pos_bound (7919 * Z.of_nat c) 9999 ltac:(lia)). lia. Qed.

Definition C76_case := C76_i32 gen0 (rev (seq 0 100)) P_Pam.orc2 100 ltac:(lia) ltac:(lia) gen0_range
  (Permutation_sym (Permutation_rev _)) P_Pam.orc2_ok.

(** the alternating algorithm stops at a much worse clustering here (compare the remark at bench.rs:3) *)
Example C76_values :
  bench_fasterpam (Lt := mint 32) 12 gen0 = Ok (mkPR (MInt 4040) [1; 1; 2; 4; 0; 0; 2; 4; 3; 0; 1; 3] 2 4 [5; 1; 6; 8; 7]) /\
  bench_pam (Lt := mint 32) 12 gen0 = Ok (mkPR (MInt 4040) [4; 4; 3; 2; 0; 0; 3; 2; 1; 0; 4; 1] 1 0 [5; 8; 3; 2; 1]) /\
  bench_alternating (Lt := mint 32) 12 gen0 = Ok (mkPR (MInt 13012) [0; 1; 2; 3; 4; 1; 2; 3; 1; 1; 1; 3] 1 0 [0; 1; 2; 3; 4]).
Proof. vm_compute. auto. Qed.
