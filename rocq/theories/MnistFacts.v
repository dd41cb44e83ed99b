(** MnistFacts.v -- the distances computed by the example program examples/mnist-kmedoids.rs (M_Mnist.v): everything up
    to the square root is exact, in whatever order the scalar product is computed. *)
From Coq Require Import ZArith QArith Qpower Lqa Lia Permutation.
From Coq.Floats Require Import SpecFloat.
From Verif Require Import Base Num M_Mat M_Orlib M_Mnist Inst Hoare Spec SpecFacts SpecMnist Laws FloatFacts Bounded FloatExact
  FloatRound FloatSqrt TermFloat OrlibFacts.
Set Implicit Arguments.
Open Scope Z_scope.

Lemma pixel_grid b : is_byte b -> f64_grid (-8) (pixel b) b.
Proof.
  intros hb. unfold is_byte in hb. unfold pixel.
  destruct (@grid_of_Z b ltac:(lia)) as [fa va]. destruct (@grid_of_Z 256 ltac:(lia)) as [fb vb].
  assert (hq : (f64_val (f64_of_Z b) / f64_val (f64_of_Z 256) == inject_Z b * 2 ^ (-8))%Q).
  { rewrite va, vb. change (2 ^ 0)%Q with 1%Q. change (2 ^ (-8))%Q with (1 # 256)%Q. change (inject_Z 256) with (256 # 1)%Q. field. }
  assert (hb1 : (0 <= inject_Z b <= 256 # 1)%Q).
  { change (256 # 1)%Q with (inject_Z 256). change 0%Q with (inject_Z 0). rewrite <- !Zle_Qle. lia. }
  assert (big : (1 <= 2 ^ 1023)%Q) by (vm_compute; discriminate).
  assert (hr : rounds (f64_val (f64_of_Z b) / f64_val (f64_of_Z 256)) (SFdiv fprec femax (f64_of_Z b) (f64_of_Z 256))).
  { change (2 ^ (-8))%Q with (1 # 256)%Q in hq. set (B := (2 ^ 1023)%Q) in *.
    apply div_rounds; auto; fold B; try (rewrite hq; clearbody B; lra). rewrite vb. vm_compute. discriminate. }
  assert (hg : f64_grid (-8) (binary_normalize fprec femax b (-8) false) b) by (apply normalize_exact; [reflexivity|lia|lia]).
  destruct hg as [fg vg]. split; [exact (proj1 hr)|].
  apply Qle_antisym; rewrite <- vg.
  - apply (@rounds_le _ _ _ hr fg). rewrite hq, vg. apply Qle_refl.
  - apply (@rounds_ge _ _ _ hr fg). rewrite hq, vg. apply Qle_refl.
Qed.

(** ** sums in any order *)
Definition nonneg_grid (g : Z) (a : f64) : Prop := exists z, 0 <= z /\ f64_grid g a z.

Lemma summed_exact g l s : -1074 <= g <= 970 -> summed l s -> (forall a, In a l -> nonneg_grid g a) ->
  (sumQ f64_val l <= inject_Z (2 ^ 53) * 2 ^ g)%Q -> nonneg_grid g s /\ (f64_val s == sumQ f64_val l)%Q.
Proof.
  intros hg h. induction h as [|x|l l1 l2 s1 s2 h1 IH1 h2 IH2 hp]; intros hin hb.
  - split; [|reflexivity]. exists 0. split; [lia|]. split; [exact I|]. cbn [f64_val]. rewrite Qmult_0_l. reflexivity.
  - split; [apply hin; left; reflexivity|]. cbn. lra.
  - assert (hin1 : forall a, In a l1 -> nonneg_grid g a).
    { intros a ha. apply hin. apply (Permutation_in _ (Permutation_sym hp)). apply in_or_app. auto. }
    assert (hin2 : forall a, In a l2 -> nonneg_grid g a).
    { intros a ha. apply hin. apply (Permutation_in _ (Permutation_sym hp)). apply in_or_app. auto. }
    assert (pos : forall l', (forall a, In a l' -> nonneg_grid g a) -> (0 <= sumQ f64_val l')%Q).
    { intros l' hl'. induction l' as [|a l' IH]; cbn [sumQ fold_right]; [lra|].
      destruct (hl' a (or_introl eq_refl)) as (z & hz & _ & hv). pose proof (IH (fun b hb' => hl' b (or_intror hb'))) as hi.
      assert (0 <= f64_val a)%Q.
      { rewrite hv. apply Qmult_le_0_compat; [change 0%Q with (inject_Z 0); rewrite <- Zle_Qle; lia|]. pose proof (pow2_pos g). lra. }
      unfold sumQ in hi. lra. }
    assert (hs : (sumQ f64_val l == sumQ f64_val l1 + sumQ f64_val l2)%Q) by (rewrite (sumQ_perm _ hp), sumQ_app; reflexivity).
    rewrite hs in hb. pose proof (pos l1 hin1). pose proof (pos l2 hin2).
    destruct IH1 as ((z1 & p1 & g1) & v1); [exact hin1|lra|]. destruct IH2 as ((z2 & p2 & g2) & v2); [exact hin2|lra|].
    assert (hz : z1 + z2 <= 2 ^ 53).
    { rewrite <- v1, <- v2, (proj2 g1), (proj2 g2), <- Qmult_plus_distr_l, <- inject_Z_plus in hb.
      apply Qmult_le_r in hb; [|apply pow2_pos]. rewrite <- Zle_Qle in hb. exact hb. }
    pose proof (@grid_add g hg s1 s2 z1 z2 g1 g2 ltac:(lia)) as hadd.
    split; [exists (z1 + z2); split; [lia|exact hadd]|].
    rewrite (proj2 hadd), inject_Z_plus, hs, <- v1, <- v2, (proj2 g1), (proj2 g2). ring.
Qed.

(** ** the distance of two images *)
Definition products (p q : list Z) : list f64 :=
  let dist := map (fun p => SFsub fprec femax (fst p) (snd p)) (combine (map pixel p) (map pixel q)) in
  map (fun p => SFmul fprec femax (fst p) (snd p)) (combine dist dist).

Lemma sq_dist_nonneg p : forall q, 0 <= sq_dist p q.
Proof. induction p as [|a p IH]; intros [|b q]; cbn [sq_dist]; try lia. specialize (IH q). pose proof (Z.square_nonneg (a - b)). lia. Qed.

Lemma sq_dist_bound p : forall q, (forall x, In x p -> is_byte x) -> (forall x, In x q -> is_byte x) ->
  sq_dist p q <= Z.of_nat (length p) * 65025.
Proof.
  induction p as [|a p IH]; intros q hp hq; [destruct q; cbn; lia|]. destruct q as [|b q]; [cbn [sq_dist]; lia|].
  cbn [sq_dist length]. specialize (IH q (fun x h => hp x (or_intror h)) (fun x h => hq x (or_intror h))).
  pose proof (hp a (or_introl eq_refl)) as ha. pose proof (hq b (or_introl eq_refl)) as hb. unfold is_byte in *.
  assert ((a - b) * (a - b) <= 65025) by nia. lia.
Qed.

Lemma sq_dist_sym p : forall q, sq_dist p q = sq_dist q p.
Proof. induction p as [|a p IH]; intros [|b q]; cbn [sq_dist]; auto. rewrite (IH q). lia. Qed.

Lemma sq_dist_diag p : sq_dist p p = 0.
Proof. induction p as [|a p IH]; cbn [sq_dist]; auto. rewrite IH. lia. Qed.

Lemma products_grid p : forall q, (forall x, In x p -> is_byte x) -> (forall x, In x q -> is_byte x) ->
  (forall a, In a (products p q) -> nonneg_grid (-16) a) /\
  (sumQ f64_val (products p q) == inject_Z (sq_dist p q) * 2 ^ (-16))%Q.
Proof.
  induction p as [|a p IH]; intros [|b q] hp hq; try (split; [intros x []|reflexivity]).
  destruct (IH q (fun x h => hp x (or_intror h)) (fun x h => hq x (or_intror h))) as [h1 h2].
  pose proof (hp a (or_introl eq_refl)) as ha. pose proof (hq b (or_introl eq_refl)) as hb.
  pose proof (@grid_sub (-8) ltac:(lia) _ _ _ _ (pixel_grid ha) (pixel_grid hb)) as hd. unfold is_byte in ha, hb.
  specialize (hd ltac:(lia)). pose proof (@grid_mul (-8) (-8) _ _ _ _ hd hd) as hm. specialize (hm ltac:(nia) ltac:(lia)).
  change (-8 + -8) with (-16) in hm.
  change (products (a :: p) (b :: q)) with
    (SFmul fprec femax (SFsub fprec femax (pixel a) (pixel b)) (SFsub fprec femax (pixel a) (pixel b)) :: products p q).
  split.
  - intros x [<-|hx]; [|apply h1; exact hx]. exists ((a - b) * (a - b)). split; [apply Z.square_nonneg|exact hm].
  - cbn [sumQ fold_right sq_dist]. unfold sumQ in h2. rewrite h2, (proj2 hm), (inject_Z_plus _ (sq_dist p q)). ring.
Qed.

Definition dist_of (dot : list f64 -> list f64 -> f64) (p q : list Z) : f64 :=
  let dist := map (fun p => SFsub fprec femax (fst p) (snd p)) (combine (map pixel p) (map pixel q)) in
  SFadd fprec femax (S754_zero false) (SFsqrt fprec femax (dot dist dist)).

Lemma add_zero_l y : f64_finite y -> ~ (f64_val y == 0)%Q -> SFadd fprec femax (S754_zero false) y = y.
Proof. destruct y as [s|s| |s m e]; try contradiction; [|reflexivity]. intros _ h. exfalso. apply h. reflexivity. Qed.

Lemma sqrt_zero s : SFadd fprec femax (S754_zero false) (SFsqrt fprec femax (S754_zero s)) = S754_zero false.
Proof. destruct s; reflexivity. Qed.

Lemma dist_of_ok dot p q : scalar_product dot -> (forall x, In x p -> is_byte x) -> (forall x, In x q -> is_byte x) ->
  Z.of_nat (length p) <= 2 ^ 37 ->
  let y := dist_of dot p q in let E := (inject_Z (sq_dist p q) / inject_Z (2 ^ 16))%Q in
  f64_finite y /\ (0 <= f64_val y)%Q /\ y <> S754_zero true /\ (sq_dist p q = 0 -> y = S754_zero false) /\
  (sq_dist p q <> 0 -> (0 < f64_val y)%Q) /\
  ((1 - 2 ^ (-53)) * (1 - 2 ^ (-53)) * E <= f64_val y * f64_val y)%Q /\
  (f64_val y * f64_val y <= (1 + 2 ^ (-53)) * (1 + 2 ^ (-53)) * E)%Q.
Proof.
  intros hdot hp hq hl. cbv zeta. unfold dist_of.
  set (dist := map (fun p => SFsub fprec femax (fst p) (snd p)) (combine (map pixel p) (map pixel q))).
  destruct (products_grid p q hp hq) as [h1 h2]. pose proof (hdot dist dist eq_refl) as hs. change (summed (products p q) (dot dist dist)) in hs.
  pose proof (sq_dist_bound p q hp hq) as hb. pose proof (sq_dist_nonneg p q) as hn.
  destruct (@summed_exact (-16) _ _ ltac:(lia) hs h1) as [(z & hz & hg) hv].
  { rewrite h2. apply Qmult_le_compat_r; [rewrite <- Zle_Qle; lia|]. vm_compute. discriminate. }
  rewrite h2 in hv.
  assert (hE : (inject_Z (sq_dist p q) / inject_Z (2 ^ 16) == f64_val (dot dist dist))%Q).
  { rewrite hv. change (2 ^ (-16))%Q with (1 # 65536)%Q. change (inject_Z (2 ^ 16)) with (65536 # 1)%Q. field. }
  rewrite hE. set (d := dot dist dist) in *. clearbody d.
  destruct (Z.eq_dec (sq_dist p q) 0) as [e0|e0].
  - rewrite e0 in hv. change (inject_Z 0) with 0%Q in hv. rewrite Qmult_0_l in hv.
    assert (hd : exists s, d = S754_zero s).
    { destruct hg as [hf _]. destruct d as [s|s| |s m e]; try contradiction; [exists s; reflexivity|exfalso].
      cbn [f64_val] in hv. pose proof (f64_pos m e). destruct s; [rewrite neg_val in hv|]; lra. }
    destruct hd as (s & ->). rewrite sqrt_zero. cbn [f64_finite f64_val]. rewrite !Qmult_0_r.
    split; [exact I|]. split; [lra|]. split; [discriminate|]. split; [reflexivity|]. split; [intros h; contradiction|]. split; lra.
  - assert (hpos : (0 < f64_val d)%Q).
    { rewrite hv. apply Qmult_lt_0_compat; [change 0%Q with (inject_Z 0); rewrite <- Zlt_Qlt; lia|reflexivity]. }
    destruct (@sqrt_close d (proj1 hg) hpos) as (c1 & c2 & c3 & c4).
    rewrite add_zero_l; [|exact c1|lra].
    split; [exact c1|]. split; [lra|]. split; [intros e; rewrite e in c2; cbn [f64_val] in c2; lra|].
    split; [intros e; contradiction|]. split; [intros _; exact c2|]. split; assumption.
Qed.

(** ** the file *)
Lemma be32_read x rest : 0 <= x < 2 ^ 32 -> read_u32 (be32 x ++ rest) = Ok (Z.to_N x, rest).
Proof.
  intros hx. cbn [be32 List.app read_u32]. do 3 f_equal. change (2 ^ 24) with (256 * (256 * 256)). change (2 ^ 16) with (256 * 256).
  change (2 ^ 8) with 256. rewrite <- !Z.div_div by lia.
  pose proof (Z.div_mod x 256 ltac:(lia)). pose proof (Z.div_mod (x / 256) 256 ltac:(lia)).
  pose proof (Z.div_mod (x / 256 / 256) 256 ltac:(lia)). lia.
Qed.

Lemma concat_row (w : nat) (imgs : list (list Z)) : (forall p, In p imgs -> length p = w) -> forall m, (m < length imgs)%nat ->
  firstn w (skipn (m * w) (concat imgs)) = nth m imgs [].
Proof.
  intros hl. induction imgs as [|p imgs IH]; intros m hm; [cbn in hm; lia|].
  assert (hp : length p = w) by (apply hl; left; reflexivity). destruct m as [|m]; cbn [Nat.mul nth concat].
  - cbn [skipn]. rewrite firstn_app, hp, Nat.sub_diag, firstn_O, app_nil_r. apply firstn_all2. lia.
  - rewrite skipn_app, hp. rewrite (skipn_all2 p) by lia. cbn [List.app].
    replace (w + m * w - w)%nat with (m * w)%nat by lia.
    apply IH; [intros q hq; apply hl; right; exact hq|cbn in hm; lia].
Qed.

Lemma row_concat (w : nat) (imgs : list (list Z)) m : (forall p, In p imgs -> length p = w) -> (m < length imgs)%nat ->
  img_row w (map pixel (concat imgs)) m = map pixel (nth m imgs []).
Proof. intros hl hm. unfold img_row. rewrite skipn_map, firstn_map, concat_row by assumption. reflexivity. Qed.

Lemma concat_length (w : nat) (imgs : list (list Z)) : (forall p, In p imgs -> length p = w) ->
  length (concat imgs) = (length imgs * w)%nat.
Proof.
  intros hl. induction imgs as [|p imgs IH]; [reflexivity|]. cbn [concat length Nat.mul]. rewrite app_length, IH, (hl p); auto.
  - left. reflexivity.
  - intros q hq. apply hl. right. exact hq.
Qed.

(** ** the matrix *)
Definition entry (dot : list f64 -> list f64 -> f64) (imgs : list (list Z)) (x y : nat) : f64 :=
  dist_of dot (nth (Nat.min x y) imgs []) (nth (Nat.max x y) imgs []).

Open Scope nat_scope.
Lemma dist_matrix_ok dot (w : nat) (imgs : list (list Z)) : (forall p, In p imgs -> length p = w) ->
  oks (dist_matrix dot w (length imgs) (map pixel (concat imgs))) (fun mat => is_arr mat (length imgs) (entry dot imgs)).
Proof.
  intros hl. unfold dist_matrix. set (n := length imgs). set (train := map pixel (concat imgs)).
  assert (hcell : forall x y, x < n -> y < n -> x <= y -> l2 dot w train x y = entry dot imgs x y).
  { intros x y hx hy hxy. unfold l2, entry, dist_of, train. rewrite !(row_concat (w := w)) by assumption.
    rewrite Nat.min_l, Nat.max_r by lia. reflexivity. }
  apply oks_mono with (fun mat => exists D, is_arr mat n D /\ forall x y, x < n -> y < n -> Nat.min x y < n -> D x y = entry dot imgs x y).
  2:{ intros mat (D & (h1 & h2 & h3) & h4). split; [exact h1|]. split; [exact h2|]. intros x y hx hy.
      rewrite <- h4 by lia. apply h3; assumption. }
  apply foldM_seq with (I := fun m mat => exists D, is_arr mat n D /\ forall x y, x < n -> y < n -> Nat.min x y < m -> D x y = entry dot imgs x y).
  - exists (fun _ _ => S754_zero false). split; [apply is_arr_repeat|]. intros. lia.
  - intros m mat hm (D & hD & hv).
    apply oks_mono with (fun mat => exists D, is_arr mat n D /\ forall x y, x < n -> y < n ->
      (Nat.min x y < m \/ Nat.min x y = m /\ Nat.max x y < m + (n - m)) -> D x y = entry dot imgs x y).
    2:{ intros mat' (D' & hD' & hv'). exists D'. split; [exact hD'|]. intros x y hx hy h. apply hv'; lia. }
    assert (hstep : forall len j mat0, m <= j -> j + len <= n ->
      (exists D, is_arr mat0 n D /\ forall x y, x < n -> y < n -> (Nat.min x y < m \/ Nat.min x y = m /\ Nat.max x y < j) -> D x y = entry dot imgs x y) ->
      oks (foldM (dist_cell dot w train m) (seq j len) mat0) (fun mat => exists D, is_arr mat n D /\ forall x y, x < n -> y < n ->
      (Nat.min x y < m \/ Nat.min x y = m /\ Nat.max x y < j + len) -> D x y = entry dot imgs x y)).
    { induction len as [|len IH]; intros j mat0 hj hjn (D0 & hD0 & hv0).
      - cbn [seq foldM oks]. exists D0. split; [exact hD0|]. intros x y hx hy h. apply hv0; lia.
      - cbn [seq foldM]. eapply oks_bind.
        + unfold dist_cell. cbv zeta. eapply oks_bind; [apply (@a_set_ok _ mat0 n D0 m j); [exact hD0|lia|lia]|].
          intros m1 h1. apply (@a_set_ok _ m1 n (fset D0 m j (l2 dot w train m j)) j m); [exact h1|lia|lia].
        + intros m2 h2. replace (j + S len) with (S j + len) by lia. apply IH; [lia|lia|].
          eexists. split; [exact h2|]. intros x y hx hy h. unfold fset. cbv beta.
          rewrite (hcell m j) by lia.
          assert (hsym : entry dot imgs m j = entry dot imgs j m).
          { unfold entry. rewrite (Nat.min_comm j m), (Nat.max_comm j m). reflexivity. }
          destruct (Nat.eqb_spec x j) as [ex|nx]; destruct (Nat.eqb_spec y m) as [ey|ny]; cbn [andb]; [subst; exact hsym| | |];
            destruct (Nat.eqb_spec x m) as [ex'|nx']; destruct (Nat.eqb_spec y j) as [ey'|ny']; cbn [andb];
            first [rewrite ex', ey'; reflexivity | apply hv0; lia]. }
    apply hstep; [lia|lia|]. exists D. split; [exact hD|]. intros x y hx hy h. apply hv; lia.
Qed.

Lemma read_mnist_ok dot content rows cols imgs : mnist_file content rows cols imgs ->
  oks (read_mnist dot content) (fun mat => is_arr mat (length imgs) (entry dot imgs)).
Proof.
  intros (hr & hc & hn & him & magic & hm & ->). destruct magic as [|a [|b [|c [|d [|? ?]]]]]; try discriminate hm.
  unfold read_mnist. cbn [List.app read_u32 bind].
  change (a :: b :: c :: d :: be32 (Z.of_nat (length imgs)) ++ be32 rows ++ be32 cols ++ concat imgs)
    with ([a; b; c; d] ++ be32 (Z.of_nat (length imgs)) ++ be32 rows ++ be32 cols ++ concat imgs).
  rewrite be32_read by lia. cbn [bind]. rewrite be32_read by lia. cbn [bind]. rewrite be32_read by lia. cbn [bind].
  assert (hl : forall p, In p imgs -> length p = Z.to_nat (rows * cols)) by (intros p hp; apply him; exact hp).
  rewrite (concat_length _ hl).
  assert (e : (N.of_nat (length imgs * Z.to_nat (rows * cols)) =? Z.to_N (Z.of_nat (length imgs)) * (Z.to_N rows * Z.to_N cols))%N = true).
  { apply N.eqb_eq. apply N2Z.inj. rewrite nat_N_Z, !N2Z.inj_mul, !Z2N.id, Nat2Z.inj_mul, Z2Nat.id by nia. reflexivity. }
  rewrite e. cbn [assertb bind].
  replace (N.to_nat (Z.to_N (Z.of_nat (length imgs)))) with (length imgs) by (rewrite Z_N_nat, Nat2Z.id; reflexivity).
  replace (N.to_nat (Z.to_N rows * Z.to_N cols)) with (Z.to_nat (rows * cols)).
  2:{ rewrite <- Z2N.inj_mul by lia. rewrite Z_N_nat. reflexivity. }
  apply dist_matrix_ok. exact hl.
Qed.

(** ** the triangle inequality *)
Open Scope Z_scope.
Lemma square_le x y : 0 <= y -> x * x <= y * y -> x <= y.
Proof. intros h1 h2. destruct (Z_le_gt_dec x y) as [|h]; [assumption|exfalso; nia]. Qed.

Lemma cauchy_schwarz p : forall q r, length p = length q -> length q = length r ->
  exists X, sq_dist p r = sq_dist p q + sq_dist q r + 2 * X /\ X * X <= sq_dist p q * sq_dist q r.
Proof.
  induction p as [|a p IH]; intros q r h1 h2.
  - destruct q; [|discriminate h1]. destruct r; [|discriminate h2]. exists 0. cbn. lia.
  - destruct q as [|b q]; [discriminate h1|]. destruct r as [|c r]; [discriminate h2|].
    injection h1 as h1. injection h2 as h2. destruct (IH q r h1 h2) as (X & e & hX). cbn [sq_dist].
    pose proof (sq_dist_nonneg p q) as pa. pose proof (sq_dist_nonneg q r) as pb.
    set (A := sq_dist p q) in *. set (B := sq_dist q r) in *. clearbody A B.
    set (d1 := a - b). set (d2 := b - c). exists (X + d1 * d2).
    assert (ea : a - c = d1 + d2) by (unfold d1, d2; lia). rewrite ea, e. clearbody d1 d2.
    split; [ring|].
    assert (hm : 2 * X * d1 * d2 <= A * (d2 * d2) + B * (d1 * d1)).
    { pose proof (Z.square_nonneg d1). pose proof (Z.square_nonneg d2).
      apply square_le; [nia|].
      assert (e1 : 2 * X * d1 * d2 * (2 * X * d1 * d2) = 4 * (X * X) * ((d1 * d1) * (d2 * d2))) by ring. rewrite e1.
      assert (e2 : (A * (d2 * d2) + B * (d1 * d1)) * (A * (d2 * d2) + B * (d1 * d1)) =
        4 * (A * B) * ((d1 * d1) * (d2 * d2)) + (A * (d2 * d2) - B * (d1 * d1)) * (A * (d2 * d2) - B * (d1 * d1))) by ring.
      rewrite e2. pose proof (Z.square_nonneg (A * (d2 * d2) - B * (d1 * d1))).
      assert (hp : 0 <= (d1 * d1) * (d2 * d2)) by nia.
      pose proof (Z.mul_le_mono_nonneg_r _ _ ((d1 * d1) * (d2 * d2)) hp hX). nia. }
    assert (e3 : (X + d1 * d2) * (X + d1 * d2) = X * X + 2 * X * d1 * d2 + (d1 * d1) * (d2 * d2)) by ring.
    assert (e4 : (d1 * d1 + A) * (d2 * d2 + B) = A * B + (A * (d2 * d2) + B * (d1 * d1)) + (d1 * d1) * (d2 * d2)) by ring.
    rewrite e3, e4. lia.
Qed.

(** the Euclidean distance rounded up to a multiple of [2^-68] *)
Definition upP : Z := 2 ^ 60.
Definition euclid_up (imgs : list (list Z)) (x y : nat) : Q :=
  (inject_Z (Z.sqrt_up (sq_dist (nth x imgs []) (nth y imgs []) * (upP * upP))) / inject_Z (256 * upP))%Q.

Lemma euclid_up_metric w imgs : images w imgs -> metric (length imgs) (euclid_up imgs).
Proof.
  intros him.
  assert (hP : 0 < upP) by reflexivity.
  assert (hinv : (0 < / inject_Z (256 * upP))%Q) by reflexivity.
  assert (hlen : forall x, (x < length imgs)%nat -> length (nth x imgs []) = w).
  { intros x hx. apply him. apply nth_In. exact hx. }
  split; [split|split].
  - intros x hx. unfold euclid_up. rewrite sq_dist_diag. reflexivity.
  - intros x y hx hy. unfold euclid_up, Qdiv. apply Qmult_le_0_compat; [|lra].
    change 0%Q with (inject_Z 0). rewrite <- Zle_Qle. apply Z.sqrt_up_nonneg.
  - intros x y hx hy. unfold euclid_up. rewrite sq_dist_sym. reflexivity.
  - intros x y z hx hy hz. unfold euclid_up, Qdiv. rewrite <- Qmult_plus_distr_l, <- inject_Z_plus.
    apply Qmult_le_compat_r; [|lra]. rewrite <- Zle_Qle.
    destruct (cauchy_schwarz (nth x imgs []) (nth y imgs []) (nth z imgs [])) as (X & e & hX); [rewrite !hlen; auto|rewrite !hlen; auto|].
    rewrite e. set (A := sq_dist (nth x imgs []) (nth y imgs [])) in *. set (B := sq_dist (nth y imgs []) (nth z imgs [])) in *.
    assert (pa : 0 <= A) by apply sq_dist_nonneg. assert (pb : 0 <= B) by apply sq_dist_nonneg.
    assert (pc : 0 <= A + B + 2 * X) by (rewrite <- e; apply sq_dist_nonneg). clearbody A B.
    set (k := upP * upP). assert (hk : 0 < k) by (unfold k; nia). clearbody k.
    pose proof (Z.sqrt_up_nonneg (A * k)) as na. pose proof (Z.sqrt_up_nonneg (B * k)) as nb.
    assert (sa : A * k <= Z.sqrt_up (A * k) * Z.sqrt_up (A * k)) by (apply Z.sqrt_up_le_square; nia).
    assert (sb : B * k <= Z.sqrt_up (B * k) * Z.sqrt_up (B * k)) by (apply Z.sqrt_up_le_square; nia).
    set (s := Z.sqrt_up (A * k)) in *. set (t := Z.sqrt_up (B * k)) in *. clearbody s t.
    apply Z.sqrt_up_le_square; [nia|lia|].
    assert (hx2 : X * k <= s * t).
    { apply square_le; [nia|]. assert (e1 : X * k * (X * k) = (X * X) * (k * k)) by ring. rewrite e1.
      assert (e2 : s * t * (s * t) = (s * s) * (t * t)) by ring. rewrite e2.
      apply Z.le_trans with (A * k * (B * k)); [|nia].
      assert (e3 : A * k * (B * k) = A * B * (k * k)) by ring. rewrite e3. apply Z.mul_le_mono_nonneg_r; [nia|exact hX]. }
    assert (e4 : (s + t) * (s + t) = s * s + t * t + 2 * (s * t)) by ring. rewrite e4. lia.
Qed.

Lemma qsquare_le x y : (0 <= y -> x * x <= y * y -> x <= y)%Q.
Proof. intros h1 h2. destruct (Qlt_le_dec y x) as [h|]; [exfalso; nra|assumption]. Qed.

Lemma inject_sub a b : inject_Z (a - b) = (inject_Z a - inject_Z b)%Q.
Proof. unfold Z.sub, Qminus. rewrite inject_Z_plus, inject_Z_opp. reflexivity. Qed.

(** a number whose square is close to that of the distance is close to the rounded distance *)
Lemma euclid_up_close w imgs x y (v : Q) : images w imgs -> (x < length imgs)%nat -> (y < length imgs)%nat ->
  let E := euclid2 imgs x y in let mx := inject_Z (Z.sqrt_up (Z.of_nat w)) in
  (0 <= v)%Q -> ((1 - 2 ^ (-53)) * (1 - 2 ^ (-53)) * E <= v * v)%Q -> (v * v <= (1 + 2 ^ (-53)) * (1 + 2 ^ (-53)) * E)%Q ->
  (v <= mx)%Q /\ (v <= euclid_up imgs x y + mx * 2 ^ (-52))%Q /\ (euclid_up imgs x y <= v + mx * 2 ^ (-52))%Q.
Proof.
  intros him hx hy E mx hv h1 h2. unfold E, euclid2 in *. clear E. unfold euclid_up.
  destruct (him _ (nth_In imgs [] hx)) as [hl hbx]. destruct (him _ (nth_In imgs [] hy)) as [_ hby].
  pose proof (sq_dist_bound _ _ hbx hby) as hb. rewrite hl in hb. pose proof (sq_dist_nonneg (nth x imgs []) (nth y imgs [])) as hn.
  set (S := sq_dist (nth x imgs []) (nth y imgs [])) in *. clearbody S. clear him hx hy hl hbx hby.
  pose proof (Z.sqrt_up_nonneg (Z.of_nat w)) as hm0.
  assert (hm : Z.of_nat w <= Z.sqrt_up (Z.of_nat w) * Z.sqrt_up (Z.of_nat w)) by (apply Z.sqrt_up_le_square; lia).
  unfold mx. clear mx. set (m := Z.sqrt_up (Z.of_nat w)) in *. clearbody m.
  set (s := Z.sqrt_up (S * (upP * upP))).
  assert (hP : 0 < upP) by reflexivity.
  assert (hk : 0 < upP * upP) by nia.
  assert (s0 : 0 <= s) by apply Z.sqrt_up_nonneg.
  assert (s1 : S * (upP * upP) <= s * s) by (apply Z.sqrt_up_le_square; [nia|exact s0|apply Z.le_refl]).
  assert (s2 : s <= m * (256 * upP)).
  { apply Z.sqrt_up_le_square; [nia|nia|]. assert (e : m * (256 * upP) * (m * (256 * upP)) = m * m * 65536 * (upP * upP)) by ring.
    rewrite e. apply Z.mul_le_mono_nonneg_r; lia. }
  set (w' := (inject_Z s / inject_Z (256 * upP))%Q). set (E := (inject_Z S / inject_Z (2 ^ 16))%Q) in *.
  assert (qm : (0 <= inject_Z m)%Q) by (change 0%Q with (inject_Z 0); rewrite <- Zle_Qle; exact hm0).
  assert (u0 : (0 < 2 ^ (-53))%Q) by reflexivity. assert (u1 : (2 ^ (-53) <= 1 # 1000000)%Q) by (vm_compute; discriminate).
  assert (u2 : (2 ^ (-52) == 2 * 2 ^ (-53))%Q) by reflexivity. rewrite u2.
  assert (hE : (0 <= E)%Q).
  { unfold E, Qdiv. apply Qmult_le_0_compat; [change 0%Q with (inject_Z 0); rewrite <- Zle_Qle; exact hn|vm_compute; discriminate]. }
  assert (hEm : (E <= (65025 # 65536) * (inject_Z m * inject_Z m))%Q).
  { rewrite <- inject_Z_mult. unfold E. change (inject_Z (2 ^ 16)) with (65536 # 1)%Q.
    assert (hz : (inject_Z S <= inject_Z (m * m * 65025))%Q) by (rewrite <- Zle_Qle; lia).
    rewrite inject_Z_mult in hz. change (inject_Z 65025) with (65025 # 1)%Q in hz. set (mm := inject_Z (m * m)) in *. clearbody mm.
    assert (e : (inject_Z S / (65536 # 1) == inject_Z S * (1 # 65536))%Q) by field. rewrite e. lra. }
  assert (hwm : (w' <= inject_Z m)%Q).
  { unfold w'. apply Qle_shift_div_r; [reflexivity|]. rewrite <- inject_Z_mult, <- Zle_Qle. exact s2. }
  assert (hw0 : (0 <= w')%Q).
  { unfold w', Qdiv. apply Qmult_le_0_compat; [change 0%Q with (inject_Z 0); rewrite <- Zle_Qle; exact s0|vm_compute; discriminate]. }
  assert (hpp : (inject_Z (256 * upP) * inject_Z (256 * upP) == inject_Z (2 ^ 16) * inject_Z (upP * upP))%Q) by reflexivity.
  assert (hEw : (E <= w' * w')%Q).
  { assert (e1 : (E == inject_Z (S * (upP * upP)) / (inject_Z (256 * upP) * inject_Z (256 * upP)))%Q).
    { unfold E. rewrite hpp, (inject_Z_mult S).
      assert (na : ~ (inject_Z (2 ^ 16) == 0)%Q) by discriminate. assert (nb : ~ (inject_Z (upP * upP) == 0)%Q) by discriminate.
      set (a := inject_Z (2 ^ 16)) in *. set (b := inject_Z (upP * upP)) in *. clearbody a b. field. split; assumption. }
    assert (e2 : (w' * w' == inject_Z (s * s) / (inject_Z (256 * upP) * inject_Z (256 * upP)))%Q).
    { unfold w'. rewrite (inject_Z_mult s). assert (nc : ~ (inject_Z (256 * upP) == 0)%Q) by discriminate.
      set (c := inject_Z (256 * upP)) in *. clearbody c. field. assumption. }
    rewrite e1, e2. unfold Qdiv. apply Qmult_le_compat_r; [rewrite <- Zle_Qle; exact s1|vm_compute; discriminate]. }
  split.
  { apply qsquare_le; [exact qm|]. apply Qle_trans with (1 := h2).
    set (u := (2 ^ (-53))%Q) in *. clearbody u E. set (M := (inject_Z m * inject_Z m)%Q) in *.
    assert (hc : ((1 + u) * (1 + u) <= 65536 # 65025)%Q) by nra. assert (0 <= M)%Q by (unfold M; nra). clearbody M. nra. }
  assert (hup : (v <= (1 + 2 ^ (-53)) * w')%Q).
  { set (u := (2 ^ (-53))%Q) in *. clearbody u E w'. apply qsquare_le; [nra|]. apply Qle_trans with (1 := h2).
    assert (e : ((1 + u) * w' * ((1 + u) * w') == (1 + u) * (1 + u) * (w' * w'))%Q) by ring. rewrite e. nra. }
  destruct (Z.eq_dec S 0) as [e0|e0].
  { assert (hw : (w' == 0)%Q). { unfold w', s. rewrite e0. reflexivity. }
    rewrite hw in *. set (u := (2 ^ (-53))%Q) in *. clearbody u. split; nra. }
  assert (hm1 : (1 <= inject_Z m)%Q).
  { change 1%Q with (inject_Z 1). rewrite <- Zle_Qle. destruct (Z_le_gt_dec 1 m); [assumption|]. exfalso. assert (m = 0) by lia. nia. }
  assert (s3 : (s - 1) * (s - 1) <= S * (upP * upP)).
  { destruct (Z.sqrt_up_spec (S * (upP * upP)) ltac:(nia)) as [h _]. fold s in h. rewrite <- Z.sub_1_r in h. lia. }
  assert (s4 : 1 <= s) by nia.
  set (tau := (1 / inject_Z (256 * upP))%Q).
  assert (tau1 : (tau <= 2 ^ (-53) * (1 # 1000))%Q) by (vm_compute; discriminate). assert (tau0 : (0 <= tau)%Q) by (vm_compute; discriminate).
  assert (hlow : ((w' - tau) * (w' - tau) <= E)%Q).
  { assert (e1 : (E == inject_Z (S * (upP * upP)) / (inject_Z (256 * upP) * inject_Z (256 * upP)))%Q).
    { unfold E. rewrite hpp, (inject_Z_mult S).
      assert (na : ~ (inject_Z (2 ^ 16) == 0)%Q) by discriminate. assert (nb : ~ (inject_Z (upP * upP) == 0)%Q) by discriminate.
      set (a := inject_Z (2 ^ 16)) in *. set (b := inject_Z (upP * upP)) in *. clearbody a b. field. split; assumption. }
    assert (e2 : ((w' - tau) * (w' - tau) == inject_Z ((s - 1) * (s - 1)) / (inject_Z (256 * upP) * inject_Z (256 * upP)))%Q).
    { unfold w', tau. rewrite (inject_Z_mult (s - 1)), inject_sub. change (inject_Z 1) with 1%Q.
      assert (nc : ~ (inject_Z (256 * upP) == 0)%Q) by discriminate.
      set (c := inject_Z (256 * upP)) in *. clearbody c. field. assumption. }
    rewrite e1, e2. unfold Qdiv. apply Qmult_le_compat_r; [rewrite <- Zle_Qle; exact s3|vm_compute; discriminate]. }
  assert (hdn : ((1 - 2 ^ (-53)) * (w' - tau) <= v)%Q).
  { set (u := (2 ^ (-53))%Q) in *. clearbody u E w' tau. apply qsquare_le; [exact hv|]. apply Qle_trans with (2 := h1).
    assert (e : ((1 - u) * (w' - tau) * ((1 - u) * (w' - tau)) == (1 - u) * (1 - u) * ((w' - tau) * (w' - tau)))%Q) by ring. rewrite e.
    apply Qmult_le_l; [nra|exact hlow]. }
  set (u := (2 ^ (-53))%Q) in *. clearbody u w' tau. set (M := inject_Z m) in *. clearbody M. split; nra.
Qed.

(** ** the order of the additions does not matter *)
Lemma dot_value dot p q : scalar_product dot -> (forall x, In x p -> is_byte x) -> (forall x, In x q -> is_byte x) ->
  Z.of_nat (length p) <= 2 ^ 37 ->
  let dist := map (fun p => SFsub fprec femax (fst p) (snd p)) (combine (map pixel p) (map pixel q)) in
  f64_finite (dot dist dist) /\ (f64_val (dot dist dist) == inject_Z (sq_dist p q) * 2 ^ (-16))%Q.
Proof.
  intros hdot hp hq hl dist.
  destruct (products_grid p q hp hq) as [h1 h2]. pose proof (hdot dist dist eq_refl) as hs. change (summed (products p q) (dot dist dist)) in hs.
  pose proof (sq_dist_bound p q hp hq) as hb. pose proof (sq_dist_nonneg p q) as hn.
  destruct (@summed_exact (-16) _ _ ltac:(lia) hs h1) as [(z & hz & hg) hv].
  { rewrite h2. apply Qmult_le_compat_r; [rewrite <- Zle_Qle; lia|]. vm_compute. discriminate. }
  split; [exact (proj1 hg)|]. rewrite hv. exact h2.
Qed.

Lemma finite_zero d : f64_finite d -> (f64_val d == 0)%Q -> exists s, d = S754_zero s.
Proof.
  intros hf hv. destruct d as [s|s| |s m e]; try contradiction; [exists s; reflexivity|exfalso].
  cbn [f64_val] in hv. pose proof (f64_pos m e). destruct s; [rewrite neg_val in hv|]; lra.
Qed.

Lemma dist_of_order dot dot' p q : scalar_product dot -> scalar_product dot' -> (forall x, In x p -> is_byte x) ->
  (forall x, In x q -> is_byte x) -> Z.of_nat (length p) <= 2 ^ 37 -> dist_of dot p q = dist_of dot' p q.
Proof.
  intros hd hd' hp hq hl. destruct (@dot_value dot p q hd hp hq hl) as [f1 v1]. destruct (@dot_value dot' p q hd' hp hq hl) as [f2 v2].
  unfold dist_of. cbv zeta. set (dist := map (fun p => SFsub fprec femax (fst p) (snd p)) (combine (map pixel p) (map pixel q))) in *.
  set (a := dot dist dist) in *. set (b := dot' dist dist) in *. clearbody a b.
  destruct (Qeq_dec (f64_val a) 0) as [e|ne].
  - assert (e' : (f64_val b == 0)%Q) by (rewrite v2, <- v1; exact e).
    destruct (finite_zero _ f1 e) as (s & ->). destruct (finite_zero _ f2 e') as (s' & ->). rewrite !sqrt_zero. reflexivity.
  - assert (a = b); [|subst; reflexivity]. apply f64_val_inj; auto.
    + intros ->. apply ne. reflexivity.
    + intros ->. apply ne. rewrite v1, <- v2. reflexivity.
    + rewrite v1, v2. reflexivity.
Qed.

Lemma is_arr_ext T (mat : Array2 T) n D D' : (forall x y, (x < n)%nat -> (y < n)%nat -> D x y = D' x y) -> is_arr mat n D -> is_arr mat n D'.
Proof.
  intros h (h1 & h2 & h3). split; [exact h1|]. split; [exact h2|]. intros x y hx hy. rewrite <- h by assumption. apply h3; assumption.
Qed.
