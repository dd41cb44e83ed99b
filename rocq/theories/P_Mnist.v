(** P_Mnist.v -- property C74: the example program examples/mnist-kmedoids.rs.  Images are read from a file of bytes,
    their Euclidean distances are computed in binary64, and FasterPAM is run on them.
    Every theorem is followed by a concrete input which meets its hypotheses. *)
From Coq Require Import ZArith QArith Qpower Lqa Lia Permutation.
From Coq.Floats Require Import SpecFloat.
From Verif Require Import Base Num M_Mat M_Util M_Fasterpam M_Orlib M_Mnist Inst Hoare Spec SpecFacts SpecMnist Laws FloatFacts
  FloatExact FloatRound FloatSqrt TermFloat FloatSil FloatQuality OrlibFacts MnistFacts Perturb Ex P_Fasterpam P_Float P_Rounding P_Term P_FloatOpt.
Open Scope nat_scope.

(** [sqrt] in binary64 has a relative error of at most [2^-53]; stated without roots *)
Theorem C74_sqrt (a : f64) : f64_finite a -> (0 < f64_val a)%Q ->
  let y := SFsqrt fprec femax a in
  f64_finite y /\ (0 < f64_val y)%Q /\
  ((1 - 2 ^ (-53)) * (1 - 2 ^ (-53)) * f64_val a <= f64_val y * f64_val y)%Q /\
  (f64_val y * f64_val y <= (1 + 2 ^ (-53)) * (1 + 2 ^ (-53)) * f64_val a)%Q.
Proof. exact (@sqrt_close a). Qed.
Print Assumptions C74_sqrt.
Definition C74_sqrt_case := C74_sqrt (f64_of_Z 2) eq_refl eq_refl.

(** additions from left to right *)
Definition dot_seq (a b : list f64) : f64 :=
  fold_left (fun s p => SFadd fprec femax s (SFmul fprec femax (fst p) (snd p))) (combine a b) (S754_zero false).
Lemma summed_left l : forall l0 s, summed l0 s ->
  summed (l0 ++ map (fun p => SFmul fprec femax (fst p) (snd p)) l)
    (fold_left (fun s (p : f64 * f64) => SFadd fprec femax s (SFmul fprec femax (fst p) (snd p))) l s).
Proof.
  induction l as [|p l IH]; intros l0 s hs; cbn [map fold_left]; [rewrite app_nil_r; exact hs|].
  match goal with |- summed (l0 ++ ?x :: ?r) _ => change (l0 ++ x :: r) with (l0 ++ [x] ++ r) end.
  rewrite app_assoc. apply IH. apply (summed_add _ l0 [SFmul fprec femax (fst p) (snd p)]); [exact hs|apply summed_one|reflexivity].
Qed.
Lemma dot_seq_ok : scalar_product dot_seq.
Proof. intros a b _. apply (summed_left (combine a b) [] _ summed_zero). Qed.

(** eight lanes, as in an unrolled loop: the products at the positions [i], [i + 8], ... are added up in lane [i];
    the lanes are added, and then the products that are left *)
Fixpoint lanes (fuel : nat) (l : list f64) (acc : list f64) : list f64 * list f64 :=
  match fuel with
  | 0 => (acc, l)
  | S fuel =>
      if 8 <=? length l then
        lanes fuel (skipn 8 l) (map (fun p => SFadd fprec femax (fst p) (snd p)) (combine acc (firstn 8 l)))
      else (acc, l)
  end.
Definition add_lanes (acc rest : list f64) : f64 :=
  let z := S754_zero false in
  fold_left (SFadd fprec femax) rest
    (fold_left (SFadd fprec femax) (map (fun i => SFadd fprec femax (nth i acc z) (nth (i + 4) acc z)) [0; 1; 2; 3]) z).
Definition dot_unrolled (a b : list f64) : f64 :=
  let l := map (fun p => SFmul fprec femax (fst p) (snd p)) (combine a b) in
  let '(acc, rest) := lanes (length l) l (repeat (S754_zero false) 8) in add_lanes acc rest.

Lemma summed_perm l l' s : summed l s -> Permutation l' l -> summed l' s.
Proof.
  intros h. revert l'. destruct h as [|x|l l1 l2 s1 s2 h1 h2 hp]; intros l' h'.
  - apply Permutation_sym, Permutation_nil in h'. subst. constructor.
  - apply Permutation_sym, Permutation_length_1_inv in h'. subst. constructor.
  - apply (summed_add _ l1 l2); auto. eapply perm_trans; [exact h'|exact hp].
Qed.
Lemma summed_fold l : forall l0 s, summed l0 s -> summed (l0 ++ l) (fold_left (SFadd fprec femax) l s).
Proof.
  induction l as [|x l IH]; intros l0 s hs; cbn [fold_left]; [rewrite app_nil_r; exact hs|].
  change (l0 ++ x :: l) with (l0 ++ [x] ++ l).
  rewrite app_assoc. apply IH. apply (summed_add _ l0 [x]); [exact hs|apply summed_one|reflexivity].
Qed.
Lemma list8 (A : Type) (l : list A) : length l = 8 -> exists a b c d e f g h, l = [a; b; c; d; e; f; g; h].
Proof.
  intros hl. do 8 (destruct l as [|? l]; [discriminate hl|]). destruct l; [|discriminate hl]. repeat eexists.
Qed.
Lemma lanes_length (A B : Type) (P : A -> B -> Prop) l l' : Forall2 P l l' -> length l = length l'.
Proof. induction 1; cbn [length]; congruence. Qed.
Lemma lanes_ok fuel : forall l acc Ls, length acc = 8 -> Forall2 summed Ls acc ->
  exists Ls', let '(acc', rest) := lanes fuel l acc in length acc' = 8 /\ Forall2 summed Ls' acc' /\
    Permutation (concat Ls ++ l) (concat Ls' ++ rest).
Proof.
  induction fuel as [|fuel IH]; intros l acc Ls ha hs; cbn [lanes]; [exists Ls; auto|].
  destruct (Nat.leb_spec 8 (length l)) as [h|h]; [|exists Ls; auto].
  assert (hf : length (firstn 8 l) = 8) by (rewrite firstn_length; lia).
  set (Ls1 := map (fun p => fst p ++ [snd p]) (combine Ls (firstn 8 l))).
  destruct (IH (skipn 8 l) (map (fun p => SFadd fprec femax (fst p) (snd p)) (combine acc (firstn 8 l))) Ls1) as (Ls' & hL).
  - rewrite map_length, combine_length. lia.
  - unfold Ls1. clear -hs. generalize (firstn 8 l). induction hs as [|L a Ls acc h1 hs IH]; intros [|x m]; cbn [combine map]; try constructor.
    + cbn [fst snd]. apply (summed_add _ L [x]); [exact h1|apply summed_one|reflexivity].
    + apply IH.
  - exists Ls'. destruct (lanes fuel (skipn 8 l) _) as [acc' rest]. destruct hL as (l1 & l2 & l3).
    split; [exact l1|]. split; [exact l2|]. eapply perm_trans; [|exact l3]. rewrite <- (firstn_skipn 8 l) at 1. rewrite app_assoc.
    apply Permutation_app_tail. unfold Ls1. assert (hlen : length Ls = length (firstn 8 l)) by (rewrite hf; rewrite <- ha; exact (lanes_length _ _ _ _ _ hs)).
    revert hlen. generalize (firstn 8 l). clear. induction Ls as [|L Ls IH]; intros [|x m] hl; try discriminate hl; [constructor|].
    cbn [combine map concat fst snd]. injection hl as hl. rewrite <- !app_assoc. apply Permutation_app_head.
    eapply perm_trans; [apply Permutation_sym, Permutation_middle|]. cbn [List.app]. apply perm_skip. apply IH. exact hl.
Qed.
Lemma concat_perm (A : Type) (Ls Ls' : list (list A)) : Permutation Ls Ls' -> Permutation (concat Ls) (concat Ls').
Proof.
  induction 1; cbn [concat]; [constructor|apply Permutation_app_head; assumption| |eapply perm_trans; eassumption].
  rewrite !app_assoc. apply Permutation_app_tail, Permutation_app_comm.
Qed.
Lemma dot_unrolled_ok : scalar_product dot_unrolled.
Proof.
  intros a b _. set (l := map (fun p => SFmul fprec femax (fst p) (snd p)) (combine a b)).
  change (summed l (let '(acc, rest) := lanes (length l) l (repeat (S754_zero false) 8) in add_lanes acc rest)).
  destruct (lanes_ok (length l) l (repeat (S754_zero false) 8) (repeat [] 8) eq_refl) as (Ls & h).
  { cbn [repeat]. do 8 (constructor; [constructor|]). constructor. }
  destruct (lanes (length l) l (repeat (S754_zero false) 8)) as [acc rest]. destruct h as (h1 & h2 & h3).
  cbn [repeat concat List.app] in h3. eapply summed_perm; [|exact h3].
  - unfold add_lanes. apply summed_fold.
    destruct (list8 _ _ h1) as (p0 & p1 & p2 & p3 & p4 & p5 & p6 & p7 & ->).
    assert (hl8 : length Ls = 8) by (rewrite (lanes_length _ _ _ _ _ h2); reflexivity).
    destruct (list8 _ _ hl8) as (q0 & q1 & q2 & q3 & q4 & q5 & q6 & q7 & ->).
    repeat match goal with H : Forall2 _ (_ :: _) (_ :: _) |- _ => inversion H; clear H; subst end.
    cbn [map nth Nat.add fold_left concat List.app].
    assert (pair : forall x y sx sy, summed x sx -> summed y sy -> summed (x ++ y) (SFadd fprec femax sx sy)).
    { intros. eapply summed_add; eauto. }
    eapply summed_perm.
    + eapply pair; [eapply pair; [eapply pair; [eapply pair; [apply summed_zero|]|]|]|]; apply pair; eassumption.
    + cbn [List.app]. rewrite app_nil_r. rewrite <- !app_assoc.
      set (Q := [q0; q1; q2; q3; q4; q5; q6; q7]).
      assert (hp : Permutation (map (fun i => nth i Q []) [0; 1; 2; 3; 4; 5; 6; 7]) (map (fun i => nth i Q []) [0; 4; 1; 5; 2; 6; 3; 7])).
      { apply Permutation_map. apply NoDup_Permutation; [repeat constructor; cbn; lia|repeat constructor; cbn; lia|]. intros x. cbn. lia. }
      apply concat_perm in hp. cbn [map nth Q concat] in hp. rewrite !app_nil_r in hp. exact hp.
Qed.

(** what is known about the matrix of distances: its entries are the Euclidean distances up to a relative error of
    [2^-53]; it is exactly symmetric, and zero exactly for equal images *)
Definition near_euclid (imgs : list (list Z)) (D : nat -> nat -> f64) : Prop :=
  forall x y, x < length imgs -> y < length imgs ->
    D x y = D y x /\ (D x y = S754_zero false <-> nth x imgs [] = nth y imgs []) /\
    ((1 - 2 ^ (-53)) * (1 - 2 ^ (-53)) * euclid2 imgs x y <= f64_val (D x y) * f64_val (D x y))%Q /\
    (f64_val (D x y) * f64_val (D x y) <= (1 + 2 ^ (-53)) * (1 + 2 ^ (-53)) * euclid2 imgs x y)%Q.
(** a number which is at least the root of the number of pixels *)
Definition side (rows cols : Z) : Q := inject_Z (Z.sqrt_up (rows * cols)).

Lemma sq_dist_zero p : forall q, length p = length q -> sq_dist p q = 0%Z -> p = q.
Proof.
  induction p as [|a p IH]; intros [|b q] hl h; try discriminate hl; [reflexivity|]. cbn [sq_dist] in h. injection hl as hl.
  pose proof (sq_dist_nonneg p q). pose proof (Z.square_nonneg (a - b)). f_equal; [nia|apply IH; auto; lia].
Qed.

(** C74.  A file of images with at most [2^37] pixels each is read; the matrix does not depend on the order in which
    the scalar products are added up. *)
Theorem C74_read content rows cols imgs : mnist_file content rows cols imgs -> (rows * cols <= 2 ^ 37)%Z ->
  exists D, near_euclid imgs D /\ no_negative_zero (length imgs) D /\
    (forall x y, x < length imgs -> y < length imgs -> (f64_val (D x y) <= side rows cols)%Q) /\
    forall dot, scalar_product dot -> exists mat, read_mnist dot content = Ok mat /\
      diss_matrix (mat_of_array2 mat) (length imgs) D.
Proof.
  intros hf hw. exists (entry dot_seq imgs). pose proof hf as (hr & hc & hn & him & _).
  assert (h0 : (0 <= rows * cols)%Z) by nia.
  assert (hel : forall x, x < length imgs -> length (nth x imgs []) = Z.to_nat (rows * cols) /\ forall b, In b (nth x imgs []) -> is_byte b).
  { intros x hx. apply him. apply nth_In. exact hx. }
  assert (hle : forall x, x < length imgs -> (Z.of_nat (length (nth x imgs [])) <= 2 ^ 37)%Z).
  { intros x hx. rewrite (proj1 (hel x hx)). lia. }
  assert (hE : forall x y, (inject_Z (sq_dist (nth (Nat.min x y) imgs []) (nth (Nat.max x y) imgs [])) / inject_Z (2 ^ 16) == euclid2 imgs x y)%Q).
  { intros x y. unfold euclid2. destruct (Nat.le_ge_cases x y) as [h|h].
    - rewrite Nat.min_l, Nat.max_r by lia. reflexivity.
    - rewrite Nat.min_r, Nat.max_l by lia. rewrite sq_dist_sym. reflexivity. }
  assert (hent : forall x y, x < length imgs -> y < length imgs ->
    let d := entry dot_seq imgs x y in f64_finite d /\ (0 <= f64_val d)%Q /\ d <> S754_zero true /\
    (sq_dist (nth x imgs []) (nth y imgs []) = 0%Z -> d = S754_zero false) /\
    (sq_dist (nth x imgs []) (nth y imgs []) <> 0%Z -> (0 < f64_val d)%Q) /\
    ((1 - 2 ^ (-53)) * (1 - 2 ^ (-53)) * euclid2 imgs x y <= f64_val d * f64_val d)%Q /\
    (f64_val d * f64_val d <= (1 + 2 ^ (-53)) * (1 + 2 ^ (-53)) * euclid2 imgs x y)%Q).
  { intros x y hx hy.
    assert (hmin : Nat.min x y < length imgs) by lia. assert (hmax : Nat.max x y < length imgs) by lia.
    pose proof (@dist_of_ok dot_seq _ _ dot_seq_ok (proj2 (hel _ hmin)) (proj2 (hel _ hmax)) (hle _ hmin)) as h. cbv zeta in h.
    rewrite (hE x y) in h. cbv zeta. unfold entry.
    assert (hs : sq_dist (nth (Nat.min x y) imgs []) (nth (Nat.max x y) imgs []) = sq_dist (nth x imgs []) (nth y imgs [])).
    { destruct (Nat.le_ge_cases x y) as [h'|h']; [rewrite Nat.min_l, Nat.max_r by lia; reflexivity|].
      rewrite Nat.min_r, Nat.max_l by lia. apply sq_dist_sym. }
    rewrite hs in h. exact h. }
  split.
  { intros x y hx hy. destruct (hent x y hx hy) as (e1 & e2 & e3 & e4 & e5 & e6 & e7).
    split; [unfold entry; rewrite (Nat.min_comm y x), (Nat.max_comm y x); reflexivity|].
    split; [|split; assumption]. split.
    - intros h. apply sq_dist_zero; [rewrite (proj1 (hel x hx)), (proj1 (hel y hy)); reflexivity|].
      destruct (Z.eq_dec (sq_dist (nth x imgs []) (nth y imgs [])) 0) as [e|e]; [exact e|]. specialize (e5 e). rewrite h in e5. cbn in e5. lra.
    - intros h. apply e4. rewrite h. apply sq_dist_diag. }
  split; [intros x y hx hy; apply hent; assumption|]. split.
  { intros x y hx hy. destruct (hent x y hx hy) as (e1 & e2 & e3 & e4 & e5 & e6 & e7).
    pose proof (@euclid_up_close _ imgs x y _ him hx hy e2 e6 e7) as h. rewrite Z2Nat.id in h by exact h0. apply h. }
  intros dot hdot. destruct (oks_inv _ _ (read_mnist_ok dot hf)) as (mat & e & ha). exists mat. split; [exact e|].
  assert (hd : is_arr mat (length imgs) (entry dot_seq imgs)).
  { apply is_arr_ext with (2 := ha). intros x y hx hy. unfold entry. apply dist_of_order; auto; try apply hel; try apply hle; try apply dot_seq_ok; lia. }
  split; [apply is_arr_matrix; exact hd|]. split.
  - intros x hx. apply (hent x x hx hx). apply sq_dist_diag.
  - intros x y hx hy. destruct (hent x y hx hy) as (e1 & e2 & _). split; [exact e1|exact e2].
Qed.
Print Assumptions C74_read.

(** A file is rejected if it is shorter than its header, or if the number of pixels is wrong. *)
Theorem C74_bad_files dot content :
  (length content < 16 -> read_mnist dot content = Panic P_unwrap) /\
  (forall magic len rows cols pixels, length magic = 4 -> (0 <= len < 2 ^ 32)%Z -> (0 <= rows < 2 ^ 32)%Z -> (0 <= cols < 2 ^ 32)%Z ->
     content = magic ++ be32 len ++ be32 rows ++ be32 cols ++ pixels -> Z.of_nat (length pixels) <> (len * (rows * cols))%Z ->
     read_mnist dot content = Panic P_unwrap).
Proof.
  split.
  - intros h. unfold read_mnist, read_u32. do 16 (destruct content as [|? content]; [reflexivity|]). cbn [length] in h. lia.
  - intros magic len rows cols pixels hm hl hr hc -> hne. destruct magic as [|a [|b [|c [|d [|? ?]]]]]; try discriminate hm.
    unfold read_mnist. cbn [List.app read_u32 bind].
    change (a :: b :: c :: d :: be32 len ++ be32 rows ++ be32 cols ++ pixels)
      with ([a; b; c; d] ++ be32 len ++ be32 rows ++ be32 cols ++ pixels).
    rewrite be32_read by exact hl. cbn [bind]. rewrite be32_read by exact hr. cbn [bind]. rewrite be32_read by exact hc. cbn [bind].
    assert (e : (N.of_nat (length pixels) =? Z.to_N len * (Z.to_N rows * Z.to_N cols))%N = false).
    { apply N.eqb_neq. intros e. apply hne. apply (f_equal Z.of_N) in e. rewrite nat_N_Z, !N2Z.inj_mul, !Z2N.id in e by lia. exact e. }
    rewrite e. reflexivity.
Qed.
Print Assumptions C74_bad_files.

(** The triangle inequality holds up to rounding. *)
Theorem C74_triangle w imgs D : images w imgs -> near_euclid imgs D ->
  (forall x y, x < length imgs -> y < length imgs -> (0 <= f64_val (D x y))%Q) ->
  forall x y z, x < length imgs -> y < length imgs -> z < length imgs ->
    ((1 - 2 ^ (-53)) * f64_val (D x z) <= (1 + 2 ^ (-53)) * (f64_val (D x y) + f64_val (D y z)))%Q.
Proof.
  intros him hn hp x y z hx hy hz.
  assert (hl : forall x, x < length imgs -> length (nth x imgs []) = w) by (intros a ha; apply him, nth_In; exact ha).
  destruct (cauchy_schwarz (nth x imgs []) (nth y imgs []) (nth z imgs [])) as (X & e & hX);
    [rewrite (hl x hx), (hl y hy); reflexivity|rewrite (hl y hy), (hl z hz); reflexivity|].
  destruct (hn x z hx hz) as (_ & _ & _ & h1). destruct (hn x y hx hy) as (_ & _ & h2 & _). destruct (hn y z hy hz) as (_ & _ & h3 & _).
  pose proof (hp x z hx hz) as p1. pose proof (hp x y hx hy) as p2. pose proof (hp y z hy hz) as p3.
  unfold euclid2 in *. rewrite e in h1. rewrite !inject_Z_plus, inject_Z_mult in h1.
  rewrite Zle_Qle, !inject_Z_mult in hX.
  assert (ed : forall a, (a / inject_Z (2 ^ 16) == a * (1 # 65536))%Q) by (intros; reflexivity). rewrite ed in h1, h2, h3.
  pose proof (sq_dist_nonneg (nth x imgs []) (nth y imgs [])) as qa. pose proof (sq_dist_nonneg (nth y imgs []) (nth z imgs [])) as qb.
  rewrite Zle_Qle in qa, qb. change (inject_Z 0) with 0%Q in qa, qb. change (inject_Z 2) with 2%Q in h1.
  set (A := inject_Z (sq_dist (nth x imgs []) (nth y imgs []))) in *. set (B := inject_Z (sq_dist (nth y imgs []) (nth z imgs []))) in *.
  set (C := inject_Z X) in *. set (a := f64_val (D x y)) in *. set (b := f64_val (D y z)) in *. set (c := f64_val (D x z)) in *.
  assert (u0 : (0 < 2 ^ (-53))%Q) by reflexivity. assert (u1 : (2 ^ (-53) < 1)%Q) by reflexivity.
  set (u := (2 ^ (-53))%Q) in *. clearbody A B C a b c u. clear - h1 h2 h3 p1 p2 p3 hX qa qb u0 u1.
  set (k := (1 # 65536)%Q) in *. assert (hk : (0 < k)%Q) by reflexivity. clearbody k.
  assert (hab : ((1 - u) * (1 - u) * (C * k) <= a * b)%Q).
  { apply qsquare_le; [nra|].
    assert (e1 : ((1 - u) * (1 - u) * (C * k) * ((1 - u) * (1 - u) * (C * k)) == ((1 - u) * (1 - u) * ((1 - u) * (1 - u))) * (k * k) * (C * C))%Q) by ring.
    assert (e2 : (a * b * (a * b) == (a * a) * (b * b))%Q) by ring. rewrite e1, e2.
    apply Qle_trans with (((1 - u) * (1 - u) * (A * k)) * ((1 - u) * (1 - u) * (B * k)))%Q.
    - assert (e3 : ((1 - u) * (1 - u) * (A * k) * ((1 - u) * (1 - u) * (B * k)) == ((1 - u) * (1 - u) * ((1 - u) * (1 - u))) * (k * k) * (A * B))%Q) by ring.
      rewrite e3. apply Qmult_le_l; [|exact hX]. repeat apply Qmult_lt_0_compat; lra.
    - assert (0 <= (1 - u) * (1 - u) * (A * k))%Q by (repeat apply Qmult_le_0_compat; lra).
      assert (0 <= (1 - u) * (1 - u) * (B * k))%Q by (repeat apply Qmult_le_0_compat; lra).
      set (x := ((1 - u) * (1 - u) * (A * k))%Q) in *. set (y := ((1 - u) * (1 - u) * (B * k))%Q) in *. clearbody x y.
      apply Qle_trans with (a * a * y)%Q; [apply Qmult_le_compat_r; assumption|]. apply Qle_trans with (y * (a * a))%Q; [lra|].
      apply Qle_trans with (b * b * (a * a))%Q; [apply Qmult_le_compat_r; [assumption|nra]|lra]. }
  apply qsquare_le; [nra|].
  assert (e1 : ((1 - u) * c * ((1 - u) * c) == (1 - u) * (1 - u) * (c * c))%Q) by ring.
  assert (e2 : ((1 + u) * (a + b) * ((1 + u) * (a + b)) == (1 + u) * (1 + u) * (a * a + b * b + 2 * (a * b)))%Q) by ring.
  rewrite e1, e2. apply Qle_trans with ((1 - u) * (1 - u) * ((1 + u) * (1 + u) * ((A + B + 2 * C) * k)))%Q.
  - apply Qmult_le_l; [nra|exact h1].
  - assert (e3 : ((1 - u) * (1 - u) * ((1 + u) * (1 + u) * ((A + B + 2 * C) * k)) == (1 + u) * (1 + u) *
      ((1 - u) * (1 - u) * (A * k) + (1 - u) * (1 - u) * (B * k) + 2 * ((1 - u) * (1 - u) * (C * k))))%Q) by ring.
    rewrite e3. apply Qmult_le_l; [nra|]. lra.
Qed.
Print Assumptions C74_triangle.

(** The whole program, for at least ten images: the loss of the clustering is not larger than the loss of the start, up
    to rounding; if no swap was possible, or fewer than 100 iterations were made, no single swap lowers the total deviation
    by more than rounding errors, and the total deviation is within a factor of five of the optimum, up to rounding. *)
Theorem C74_main content rows cols imgs sample : mnist_file content rows cols imgs -> (rows * cols <= 2 ^ 37)%Z ->
  sizes (length imgs) 10 -> medoids (length imgs) 10 (sample (length imgs) 10) ->
  exists D, near_euclid imgs D /\ forall dot, scalar_product dot ->
    exists mat r, read_mnist dot content = Ok mat /\ diss_matrix (mat_of_array2 mat) (length imgs) D /\
      mnist_main dot sample content = Ok r /\ well_assigned (length imgs) 10 (vals D) r /\
      r_loss r = left_sum (assigned_losses (length imgs) D r) /\
      let n := length imgs in let e := rounding n (side rows cols) in
      let good := nearly_optimal (vals D) n (r_med r) e /\ five_up_to (vals D) n 10 e (r_med r) in
      (tdev (vals D) n (r_med r) <= tdev (vals D) n (sample n 10%nat) + inject_Z (Z.of_nat n + 1) * e)%Q /\
      (r_swaps r = 0 -> good) /\
      (r_iter r < 100 -> good \/ stalled (fasterpam (mat_of_array2 mat) (sample n 10)) r).
Proof.
  intros hf hw hs hm. destruct (C74_read content rows cols imgs hf hw) as (D & h1 & h2 & h3 & h4). exists D. split; [exact h1|].
  intros dot hdot. destruct (h4 dot hdot) as (mat & e & hd). pose proof hf as (hr & hc & hn & him & _).
  pose proof hm as (hl & hm').
  set (n := length imgs) in *. set (med := sample n 10) in *. set (mx := side rows cols) in *.
  assert (hmx0 : (0 <= mx)%Q).
  { unfold mx, side. change 0%Q with (inject_Z 0). rewrite <- Zle_Qle. apply Z.sqrt_up_nonneg. }
  assert (hat : at_most n D mx).
  { split; [|exact h3]. apply Qle_trans with (inject_Z (2 ^ 37)); [|vm_compute; discriminate].
    unfold mx, side. rewrite <- Zle_Qle. apply Z.sqrt_up_le_square; nia. }
  assert (hs' : sizes n (length med)) by (rewrite hl; exact hs). assert (hmm : medoids n (length med) med) by (rewrite hl; exact hm).
  assert (h2' : 2 <= length med) by (rewrite hl; lia).
  destruct (C61_fasterpam (mat_of_array2 mat) n D (seq 0 n) med 100 mx hd (f64_exact_from _ _ _ (diss_nonneg _ _ _ hd)) hat hs' hmm h2'
    eq_refl (Permutation_refl _)) as (r & er & c1 & c2 & c3).
  assert (hlen : mlen (mat_of_array2 mat) = n) by (apply hd).
  assert (hfr : forall maxiter, fasterpam (Lt := f64) (mat_of_array2 mat) med maxiter = rand_fasterpam (mat_of_array2 mat) (seq 0 n) med maxiter).
  { intros. unfold fasterpam, rand_fasterpam. rewrite hlen. reflexivity. }
  destruct (C40_fasterpam (Lt := f64) (mat_of_array2 mat) n D med 100 (seq 0 n) hd hs' hmm) as (r1 & r2 & f1 & f2 & f3 & f4 & f5).
  { intros j hj. apply in_seq in hj. lia. }
  rewrite er in f2. injection f2 as <-. rewrite hl in f4. destruct (f5 h2' eq_refl) as [_ f6].
  exists mat, r. split; [exact e|]. split; [exact hd|]. split.
  { unfold mnist_main. rewrite e. cbn [bind]. assert (hrow : a_rows mat = n) by exact hlen. rewrite hrow.
    assert (h10 : (10 <=? n) = true) by (apply Nat.leb_le; destruct hs; lia). rewrite h10. cbn [assertb bind]. fold med.
    rewrite hfr. exact er. }
  split; [exact f4|]. split; [exact f6|]. cbv zeta. split; [exact c1|].
  assert (hgood : nearly_optimal (vals D) n (r_med r) (rounding n mx) ->
    nearly_optimal (vals D) n (r_med r) (rounding n mx) /\ five_up_to (vals D) n 10 (rounding n mx) (r_med r)).
  { intros ho. split; [exact ho|]. intros opt hlo hio. destruct f4 as (f4 & _). destruct f4 as (fl & _ & fin).
    assert (hclose : entries_close n (vals D) (euclid_up imgs) (mx * 2 ^ (-52))).
    { intros x y hx hy. destruct (h1 x y hx hy) as (_ & _ & g1 & g2). assert (g0 : (0 <= f64_val (D x y))%Q) by (apply hd; assumption).
      pose proof (@euclid_up_close _ imgs x y _ him hx hy g0 g1 g2) as h. rewrite Z2Nat.id in h by nia. fold (side rows cols) in h. fold mx in h.
      split; apply h. }
    pose proof (@five_close n (vals D) (euclid_up imgs) _ _ (r_med r) opt (euclid_up_metric him) hclose fin hio ltac:(rewrite fl; exact hlo) ho) as h.
    rewrite fl in h. apply Qle_trans with (1 := h). change (inject_Z (Z.of_nat 10)) with 10%Q. change (inject_Z (Z.of_nat 10 + 1)) with 11%Q.
    unfold rounding. rewrite inject_Z_mult. assert (hn1 : (1 <= inject_Z (Z.of_nat n))%Q).
    { change 1%Q with (inject_Z 1). rewrite <- Zle_Qle. destruct hs. lia. }
    assert (ec : (2 ^ (-46) == 64 * 2 ^ (-52))%Q) by reflexivity. rewrite ec.
    assert (u0 : (0 < 2 ^ (-52))%Q) by reflexivity. set (u := (2 ^ (-52))%Q) in *. set (N := inject_Z (Z.of_nat n)) in *. clearbody u N.
    assert (hx : (0 <= mx * u)%Q) by nra. assert (hy : (N * (mx * u) <= N * N * (mx * u))%Q).
    { apply Qmult_le_compat_r; [nra|exact hx]. }
    assert (hz : (N * N * mx * (64 * u) == 64 * (N * N * (mx * u)))%Q) by ring. rewrite hz.
    assert (0 <= N * (mx * u))%Q by nra. lra. }
  split; [intros h0; apply hgood, c2; [exact h0|lia]|].
  intros hlt. destruct (c3 hlt) as [c|(i & r0 & q1 & q2 & q3)]; [left; apply hgood; exact c|right]. exists i, r0. rewrite hfr. auto.
Qed.
Print Assumptions C74_main.

(** Twelve images of 2 by 2 pixels. *)
Definition imgs12 : list (list Z) :=
  [[0; 0; 0; 0]; [255; 255; 255; 255]; [10; 20; 30; 40]; [11; 21; 31; 41]; [200; 0; 0; 200]; [0; 200; 200; 0]; [5; 5; 5; 5];
   [100; 100; 100; 100]; [100; 101; 102; 103]; [50; 60; 70; 80]; [250; 0; 250; 0]; [1; 2; 3; 4]]%Z.
Definition file12 : list Z := ([0; 0; 8; 3] ++ [0; 0; 0; 12] ++ [0; 0; 0; 2] ++ [0; 0; 0; 2] ++ concat imgs12)%Z.
Lemma file12_ok : mnist_file file12 2 2 imgs12.
Proof.
  split; [lia|]. split; [lia|]. split; [reflexivity|]. split; [|exists [0; 0; 8; 3]%Z; split; reflexivity].
  intros p hp. cbn in hp. repeat (destruct hp as [<-|hp]; [split; [reflexivity|]; intros x hx; cbn in hx; unfold is_byte; lia|]). destruct hp.
Qed.
Definition C74_read_case := C74_read file12 2 2 imgs12 file12_ok ltac:(lia).
Lemma s12 : sizes 12 10. Proof. repeat split; try lia; vm_compute; discriminate. Qed.
Lemma k12 : medoids 12 10 (seq 0 10).
Proof. split; [reflexivity|]. split; [apply seq_NoDup|]. intros m hm. apply in_seq in hm. lia. Qed.
Definition C74_main_case := C74_main file12 2 2 imgs12 (fun _ k => seq 0 k) file12_ok ltac:(lia) s12 k12.
Definition C74_bad_case := proj2 (C74_bad_files dot_seq ([0; 0; 8; 3] ++ be32 2 ++ be32 1 ++ be32 3 ++ [1; 2; 3; 4; 5])%Z)
  [0; 0; 8; 3]%Z 2%Z 1%Z 3%Z [1; 2; 3; 4; 5]%Z eq_refl ltac:(lia) ltac:(lia) ltac:(lia) eq_refl ltac:(discriminate).
Example C74_value : option_map (fun r => (r_assi r, r_iter r, r_swaps r, r_med r))
    (match mnist_main dot_unrolled (fun _ k => seq 0 k) file12 with Ok r => Some r | Panic _ => None end) =
  Some ([0; 1; 3; 3; 4; 5; 6; 8; 8; 9; 2; 7], 2, 6, [0; 1; 10; 3; 4; 5; 6; 11; 8; 9]).
Proof. vm_compute. reflexivity. Qed.

(** The triangle inequality does not hold exactly: for the three images (0,0), (1,1) and (4,4) the computed distance of
    the first and the last one is larger than the sum of the others. *)
Definition imgs3 : list (list Z) := [[0; 0]; [1; 1]; [4; 4]]%Z.
Definition file3 : list Z := ([0; 0; 8; 3] ++ [0; 0; 0; 3] ++ [0; 0; 0; 1] ++ [0; 0; 0; 2] ++ concat imgs3)%Z.
Lemma file3_ok : mnist_file file3 1 2 imgs3.
Proof.
  split; [lia|]. split; [lia|]. split; [reflexivity|]. split; [|exists [0; 0; 8; 3]%Z; split; reflexivity].
  intros p hp. cbn in hp. repeat (destruct hp as [<-|hp]; [split; [reflexivity|]; intros x hx; cbn in hx; unfold is_byte; lia|]). destruct hp.
Qed.
Theorem C74_metric_refuted : exists content rows cols imgs mat D, mnist_file content rows cols imgs /\
  read_mnist dot_seq content = Ok mat /\ diss_matrix (mat_of_array2 mat) (length imgs) D /\ near_euclid imgs D /\
  ~ metric (length imgs) (vals D).
Proof.
  destruct (C74_read file3 1 2 imgs3 file3_ok ltac:(lia)) as (D & h1 & h2 & h3 & h4).
  destruct (h4 dot_seq dot_seq_ok) as (mat & e & hd). exists file3, 1%Z, 2%Z, imgs3, mat, D.
  split; [exact file3_ok|]. split; [exact e|]. split; [exact hd|]. split; [exact h1|].
  intros (_ & _ & ht). specialize (ht 0 1 2 ltac:(cbn; lia) ltac:(cbn; lia) ltac:(cbn; lia)). unfold vals in ht.
  pose proof hd as ((_ & _ & hg) & _).
  assert (em : forall x y, x < 3 -> y < 3 -> mget (mat_of_array2 mat) x y = Ok (D x y)) by exact hg.
  assert (emat : read_mnist dot_seq file3 = Ok mat) by exact e. vm_compute in emat. injection emat as emat. rewrite <- emat in em.
  pose proof (em 0 1 ltac:(lia) ltac:(lia)) as e1. pose proof (em 1 2 ltac:(lia) ltac:(lia)) as e2. pose proof (em 0 2 ltac:(lia) ltac:(lia)) as e3.
  vm_compute in e1, e2, e3. injection e1 as e1. injection e2 as e2. injection e3 as e3. rewrite <- e1, <- e2, <- e3 in ht.
  vm_compute in ht. apply ht. reflexivity.
Qed.
Print Assumptions C74_metric_refuted.
Example C74_triangle_case : exists D, near_euclid imgs12 D /\ forall x y z, x < 12 -> y < 12 -> z < 12 ->
  ((1 - 2 ^ (-53)) * f64_val (D x z) <= (1 + 2 ^ (-53)) * (f64_val (D x y) + f64_val (D y z)))%Q.
Proof.
  destruct C74_read_case as (D & h1 & h2 & h3 & h4). destruct (h4 dot_seq dot_seq_ok) as (mat & e & hd). exists D. split; [exact h1|].
  apply (C74_triangle 4 imgs12 D (proj1 (proj2 (proj2 (proj2 file12_ok)))) h1). intros x y hx hy. apply hd; assumption.
Qed.
