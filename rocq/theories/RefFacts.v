(** RefFacts.v -- facts about the reference algorithms of Reference.v: they commute with maps of the
    search space, they can be interrupted and resumed, and they only depend on comparisons. *)
From Coq Require Import QArith Lqa Lia Permutation.
From Verif Require Import Base Spec SpecFacts Reference PamShape BuildFacts.
Set Implicit Arguments.
Open Scope nat_scope.

(** ** maps between search spaces *)
Section Map.
  Variables T U : Type.
  Variable P : T -> Prop.
  Variable h : T -> U.
  Variable g : nat -> nat.

  Lemma first_best_map (b1 : T -> T -> bool) (b2 : U -> U -> bool) l x :
    (forall y z, P y -> P z -> b2 (h y) (h z) = b1 y z) -> P x -> (forall y, In y l -> P y) ->
    first_best b2 (map h l) (h x) = h (first_best b1 l x) /\ P (first_best b1 l x).
  Proof.
    intros hb. revert x. unfold first_best. induction l as [|z l IH]; intros x hx hl; simpl; [auto|].
    assert (hz : P z) by (apply hl; simpl; auto). rewrite hb by auto.
    assert (hl' : forall y, In y l -> P y) by (intros y hy; apply hl; simpl; auto).
    destruct (b1 z x); apply IH; auto.
  Qed.

  Lemma improve_map (b1 : T -> T -> bool) (b2 : U -> U -> bool) l x :
    (forall y z, P y -> P z -> b2 (h y) (h z) = b1 y z) -> P x -> (forall y, In y l -> P y) ->
    improve b2 (map h l) (h x) = option_map h (improve b1 l x) /\
    (forall y, improve b1 l x = Some y -> P y).
  Proof.
    intros hb hx hl. unfold improve. destruct (@first_best_map b1 b2 l x hb hx hl) as [-> hp].
    rewrite hb by auto. destruct (b1 (first_best b1 l x) x); simpl; split; auto; [|discriminate].
    intros y e. injection e as <-. auto.
  Qed.

  Definition out (r : T * nat * nat) : U * nat * nat := (h (fst (fst r)), snd (fst r), snd r).

  Section Eager.
    Variable try1 : T -> nat -> option T.
    Variable try2 : U -> nat -> option U.
    Variable order : list nat.
    Hypothesis Htry : forall x j, P x -> In j order ->
      try2 (h x) (g j) = option_map h (try1 x j) /\ (forall y, try1 x j = Some y -> P y).

    Lemma pass_map x s : P x ->
      pass try2 (map g order) (h x, s) = (h (fst (pass try1 order (x, s))), snd (pass try1 order (x, s))) /\
      P (fst (pass try1 order (x, s))).
    Proof.
      intros hx. assert (G : forall l x s, (forall j, In j l -> In j order) -> P x ->
        pass try2 (map g l) (h x, s) = (h (fst (pass try1 l (x, s))), snd (pass try1 l (x, s))) /\
        P (fst (pass try1 l (x, s)))); [|apply G; auto].
      clear x s hx. induction l as [|j l IH]; intros x s hl hx; [auto|].
      unfold pass in *. cbn [map fold_left fst snd].
      destruct (@Htry x j hx (hl j (or_introl eq_refl))) as [e hp]. rewrite e.
      destruct (try1 x j) as [y|]; cbn [option_map]; apply IH; auto; intros i hi; apply hl; simpl; auto.
    Qed.

    Lemma search_map maxiter x s i : P x ->
      search try2 (map g order) maxiter (h x) s i = out (search try1 order maxiter x s i) /\
      P (fst (fst (search try1 order maxiter x s i))).
    Proof.
      revert x s i. induction maxiter as [|m IH]; intros x s i hx; cbn [search]; [split; auto|].
      destruct (@pass_map x s hx) as [-> hp]. cbn [fst snd].
      destruct (snd (pass try1 order (x, s)) =? s); [split; auto|]. apply IH. auto.
    Qed.
  End Eager.

  Section Steep.
    Variable best1 : T -> option T.
    Variable best2 : U -> option U.
    Hypothesis Hbest : forall x, P x ->
      best2 (h x) = option_map h (best1 x) /\ (forall y, best1 x = Some y -> P y).

    Lemma descent_map maxiter x s i : P x ->
      descent best2 maxiter (h x) s i = out (descent best1 maxiter x s i) /\
      P (fst (fst (descent best1 maxiter x s i))).
    Proof.
      revert x s i. induction maxiter as [|m IH]; intros x s i hx; cbn [descent]; [split; auto|].
      destruct (Hbest hx) as [-> hp]. destruct (best1 x) as [y|]; cbn [option_map]; [|split; auto].
      apply IH. auto.
    Qed.
  End Steep.
End Map.

Lemma out_id T (r : T * nat * nat) : out (fun x => x) r = r.
Proof. destruct r as [[x s] i]. reflexivity. Qed.

(** ** interrupting and resuming *)
Section Resume.
  Variable T : Type.

  (** the two runs [r1] and [r2], one after the other, give the run [r]; the second one starts with a
      round without changes if the first one had already come to an end *)
  Definition resumed (r1 r2 r : T * nat * nat) : Prop :=
    fst (fst r2) = fst (fst r) /\ snd (fst r1) + snd (fst r2) = snd (fst r) /\
    (snd r1 + snd r2 = snd r \/ snd r1 + snd r2 = S (snd r) /\ r1 = r /\ snd r2 = 1).

  Section Eager.
    Variable try : T -> nat -> option T.
    Variable order : list nat.

    Lemma pass_shift l x s c : pass try l (x, s + c) = (fst (pass try l (x, s)), snd (pass try l (x, s)) + c).
    Proof.
      revert x s. induction l as [|j l IH]; intros x s; [reflexivity|].
      unfold pass in *. cbn [fold_left fst snd]. destruct (try x j) as [y|]; apply (IH y (S s)) || apply IH.
    Qed.

    Lemma pass_ge l x s : s <= snd (pass try l (x, s)).
    Proof.
      revert x s. induction l as [|j l IH]; intros x s; [cbn; auto|].
      unfold pass in *. cbn [fold_left fst snd]. destruct (try x j) as [y|]; [|apply IH].
      specialize (IH y (S s)). lia.
    Qed.

    Lemma pass_same l x s : snd (pass try l (x, s)) = s -> fst (pass try l (x, s)) = x.
    Proof.
      revert x s. induction l as [|j l IH]; intros x s; [cbn; auto|].
      unfold pass in *. cbn [fold_left fst snd]. destruct (try x j) as [y|]; [|apply IH].
      intros e. pose proof (pass_ge l y (S s)) as h. unfold pass in h. lia.
    Qed.

    Lemma search_shift m x s i c d : search try order m x (s + c) (i + d) =
      (fst (fst (search try order m x s i)), snd (fst (search try order m x s i)) + c, snd (search try order m x s i) + d).
    Proof.
      revert x s i. induction m as [|m IH]; intros x s i; [reflexivity|]. cbn [search].
      rewrite pass_shift. cbn [fst snd].
      destruct (Nat.eqb_spec (snd (pass try order (x, s)) + c) (s + c)) as [e|e];
        destruct (Nat.eqb_spec (snd (pass try order (x, s))) s) as [e'|e']; try lia; [reflexivity|].
      apply (IH _ _ (S i)).
    Qed.

    Lemma search_resume a b x :
      resumed (search try order a x 0 0) (search try order b (fst (fst (search try order a x 0 0))) 0 0)
              (search try order (a + b) x 0 0).
    Proof.
      assert (G : forall a x s i, let r1 := search try order a x s i in
        search try order (a + b) x s i = search try order b (fst (fst r1)) (snd (fst r1)) (snd r1) \/
        (search try order (a + b) x s i = r1 /\ snd (pass try order (fst (fst r1), 0)) = 0)).
      { clear a x. induction a as [|a IH]; intros x s i; cbn [search plus]; [left; auto|].
        destruct (Nat.eqb_spec (snd (pass try order (x, s))) s) as [e|e]; [|apply IH].
        right. split; [auto|]. cbn [fst snd]. rewrite (pass_same _ _ e).
        change s with (0 + s) in e at 1. rewrite pass_shift in e. cbn [snd] in e. lia. }
      specialize (G a x 0 0). cbv zeta in G.
      destruct (search try order a x 0 0) as [[y s1] i1] eqn:e1. cbn [fst snd] in G.
      destruct G as [->|[-> hp]]; cbn [fst snd].
      - pose proof (search_shift b y 0 0 s1 i1) as h. cbn [plus] in h. rewrite h.
        unfold resumed. cbn [fst snd]. split; [auto|]. split; [lia|]. left. lia.
      - destruct b as [|b]; cbn [search]; unfold resumed; cbn [fst snd].
        + split; [auto|]. split; [lia|]. left. lia.
        + rewrite hp, (pass_same _ _ hp). cbn [Nat.eqb fst snd].
          split; [auto|]. split; [lia|]. right. split; [lia|]. auto.
    Qed.
  End Eager.

  Section Steep.
    Variable best : T -> option T.

    Lemma descent_shift m x s i c d : descent best m x (s + c) (i + d) =
      (fst (fst (descent best m x s i)), snd (fst (descent best m x s i)) + c, snd (descent best m x s i) + d).
    Proof.
      revert x s i. induction m as [|m IH]; intros x s i; [reflexivity|]. cbn [descent].
      destruct (best x) as [y|]; [|reflexivity]. apply (IH y (S s) (S i)).
    Qed.

    Lemma descent_resume a b x :
      resumed (descent best a x 0 0) (descent best b (fst (fst (descent best a x 0 0))) 0 0)
              (descent best (a + b) x 0 0).
    Proof.
      assert (G : forall a x s i, let r1 := descent best a x s i in
        descent best (a + b) x s i = descent best b (fst (fst r1)) (snd (fst r1)) (snd r1) \/
        (descent best (a + b) x s i = r1 /\ best (fst (fst r1)) = None)).
      { clear a x. induction a as [|a IH]; intros x s i; cbn [descent plus]; [left; auto|].
        destruct (best x) as [y|] eqn:e; [apply IH|]. right. auto. }
      specialize (G a x 0 0). cbv zeta in G.
      destruct (descent best a x 0 0) as [[y s1] i1] eqn:e1. cbn [fst snd] in G.
      destruct G as [->|[-> hp]]; cbn [fst snd].
      - pose proof (descent_shift b y 0 0 s1 i1) as h. cbn [plus] in h. rewrite h.
        unfold resumed. cbn [fst snd]. split; [auto|]. split; [lia|]. left. lia.
      - destruct b as [|b]; cbn [descent]; unfold resumed; cbn [fst snd].
        + split; [auto|]. split; [lia|]. left. lia.
        + rewrite hp. cbn [fst snd]. split; [auto|]. split; [lia|]. right. split; [lia|]. auto.
    Qed.
  End Steep.
End Resume.

Lemma alternate_shift v n m med i d :
  alternate v n m med (i + d) = (fst (alternate v n m med i), snd (alternate v n m med i) + d).
Proof.
  revert med i. induction m as [|m IH]; intros med i; [reflexivity|]. cbn [alternate].
  destruct (list_eq_dec Nat.eq_dec _ _); [reflexivity|]. apply (IH _ (S i)).
Qed.

Lemma alternate_resume v n a b med :
  let r1 := alternate v n a med 0 in let r2 := alternate v n b (fst r1) 0 in let r := alternate v n (a + b) med 0 in
  fst r2 = fst r /\ (snd r1 + snd r2 = snd r \/ snd r1 + snd r2 = S (snd r) /\ r1 = r /\ snd r2 = 1).
Proof.
  assert (G : forall a med i, let r1 := alternate v n a med i in
    alternate v n (a + b) med i = alternate v n b (fst r1) (snd r1) \/
    (alternate v n (a + b) med i = r1 /\ centers v n (clusters v n (fst r1)) (fst r1) = fst r1)).
  { clear a med. induction a as [|a IH]; intros med i; cbn [alternate plus]; [left; auto|].
    destruct (list_eq_dec Nat.eq_dec _ _) as [e|e]; [|apply IH]. right. auto. }
  cbv zeta. specialize (G a med 0). cbv zeta in G.
  destruct (alternate v n a med 0) as [y i1] eqn:e1. cbn [fst snd] in G.
  destruct G as [->|[-> hp]]; cbn [fst snd].
  - pose proof (alternate_shift v n b y 0 i1) as h. cbn [plus] in h. rewrite h. cbn [fst snd].
    split; [auto|]. left. lia.
  - destruct b as [|b]; cbn [alternate]; cbn [fst snd].
    + split; [auto|]. left. lia.
    + rewrite hp. destruct (list_eq_dec Nat.eq_dec y y); [|tauto]. cbn [fst snd].
      split; [auto|]. right. split; [lia|]. auto.
Qed.

(** ** scaling the dissimilarities, and relabelling the objects *)
Section Compare.
  Variables v1 v2 : diss.
  Variable n : nat.
  Variable c : Q.
  Variable sg : nat -> nat.
  Hypothesis Hc : (0 < c)%Q.
  Hypothesis Hsg : forall i j, i < n -> j < n -> (v2 (sg i) (sg j) == c * v1 i j)%Q.
  Hypothesis Hperm : Permutation (map sg (seq 0 n)) (seq 0 n).

  Lemma scale_lt a b a' b' : (a' == c * a)%Q -> (b' == c * b)%Q -> Qlt_bool a' b' = Qlt_bool a b.
  Proof.
    intros ha hb. apply eq_true_iff_eq. rewrite !Qlt_bool_iff, ha, hb. apply Qmult_lt_l. auto.
  Qed.
  Lemma scale_le a b a' b' : (a' == c * a)%Q -> (b' == c * b)%Q -> Qle_bool a' b' = Qle_bool a b.
  Proof.
    intros ha hb. apply eq_true_iff_eq. rewrite !Qle_bool_iff, ha, hb. apply Qmult_le_l. auto.
  Qed.

  Definition scaled (a a' : Q) : Prop := (a' == c * a)%Q.

  Lemma scaled_row o med : o < n -> inr n med -> Forall2 scaled (map (v1 o) med) (map (v2 (sg o)) (map sg med)).
  Proof.
    intros ho. induction med as [|m med IH]; intros hin; cbn [map]; constructor.
    - apply Hsg; auto. apply hin. simpl. auto.
    - apply IH. intros x hx. apply hin. simpl. auto.
  Qed.

  Lemma scaled_min l l' : Forall2 scaled l l' -> scaled (minQ l) (minQ l').
  Proof.
    induction 1 as [|a a' l l' h hl IH]; [unfold scaled; cbn; ring|].
    destruct hl as [|b b' l l' h' hl]; [exact h|].
    change (scaled (Qminmax.Qmin a (minQ (b :: l))) (Qminmax.Qmin a' (minQ (b' :: l')))).
    unfold scaled in *.
    destruct (Qminmax.Q.min_spec a (minQ (b :: l))) as [[h1 e1]|[h1 e1]];
      destruct (Qminmax.Q.min_spec a' (minQ (b' :: l'))) as [[h2 e2]|[h2 e2]];
      rewrite e1, e2; auto.
    - rewrite IH, h in h2. apply (proj1 (Qmult_le_l _ _ c Hc)) in h2. exfalso. lra.
    - rewrite IH, h in h2. apply (proj1 (Qmult_lt_l _ _ c Hc)) in h2. exfalso. lra.
  Qed.

  Lemma scaled_insert a a' l l' : scaled a a' -> Forall2 scaled l l' -> Forall2 scaled (insertQ a l) (insertQ a' l').
  Proof.
    intros ha. induction 1 as [|b b' l l' h hl IH]; cbn [insertQ]; [auto|].
    rewrite (@scale_le a b a' b') by auto. destruct (Qle_bool a b); auto.
  Qed.
  Lemma scaled_sort l l' : Forall2 scaled l l' -> Forall2 scaled (sortQ l) (sortQ l').
  Proof. induction 1; cbn; [auto|]. apply scaled_insert; auto. Qed.
  Lemma scaled_nth i l l' : Forall2 scaled l l' -> scaled (nth i l 0%Q) (nth i l' 0%Q).
  Proof.
    intros h. revert i. induction h; intros [|i]; cbn; auto; unfold scaled; ring.
  Qed.

  Lemma scaled_ratio a b a' b' : scaled a a' -> scaled b b' -> (a' / b' == a / b)%Q.
  Proof.
    unfold scaled. intros ha hb. rewrite ha, hb. destruct (Qeq_dec b 0) as [e|e].
    - rewrite e. unfold Qdiv. assert (h : (c * 0 == 0)%Q) by ring. rewrite h. change (/ 0)%Q with 0%Q. ring.
    - field. split; auto. intros h. rewrite h in Hc. lra.
  Qed.

  Lemma sum_relabel (f g : nat -> Q) k : (forall o, o < n -> (f (sg o) == k * g o)%Q) ->
    (sumQ f (seq 0 n) == k * sumQ g (seq 0 n))%Q.
  Proof.
    intros h. rewrite <- (sumQ_perm f Hperm), sumQ_map, <- sumQ_scale.
    apply sumQ_ext. intros o ho. apply in_seq in ho. apply h. lia.
  Qed.

  Lemma scaled_tdev med : inr n med -> (tdev v2 n (map sg med) == c * tdev v1 n med)%Q.
  Proof.
    intros hin. apply sum_relabel. intros o ho. apply scaled_min. apply scaled_row; auto.
  Qed.
  Lemma scaled_sil med : inr n med -> (med_sil v2 n (map sg med) == med_sil v1 n med)%Q.
  Proof.
    intros hin. unfold med_sil.
    rewrite (@sum_relabel (fun o => near_ratio v2 o (map sg med)) (fun o => near_ratio v1 o med) 1%Q).
    - rewrite Qmult_1_l. reflexivity.
    - intros o ho. rewrite Qmult_1_l. unfold near_ratio.
      apply scaled_ratio; apply scaled_nth, scaled_sort, scaled_row; auto.
  Qed.

  Lemma dev_better_eq a b : inr n a -> inr n b -> dev_better v2 n (map sg a) (map sg b) = dev_better v1 n a b.
  Proof. intros ha hb. apply scale_lt; apply scaled_tdev; auto. Qed.
  Lemma sil_better_eq a b : inr n a -> inr n b -> sil_better v2 n (map sg a) (map sg b) = sil_better v1 n a b.
  Proof.
    intros ha hb. apply eq_true_iff_eq. unfold sil_better.
    rewrite !Qlt_bool_iff, !scaled_sil by auto. reflexivity.
  Qed.

  Lemma sg_inj i j : i < n -> j < n -> sg i = sg j -> i = j.
  Proof.
    intros hi hj e. assert (hnd : NoDup (map sg (seq 0 n))).
    { apply Permutation_NoDup with (1 := Permutation_sym Hperm). apply seq_NoDup. }
    rewrite (NoDup_nth _ 0) in hnd. rewrite map_length, seq_length in hnd.
    apply hnd; auto. rewrite !nth_map_seq by auto. auto.
  Qed.

  Lemma inr_swap med b j : inr n med -> j < n -> inr n (swap med b j).
  Proof.
    intros hin hj x hx. unfold swap in hx. apply in_app_or in hx as [hx|[<-|hx]]; auto; apply hin.
    - rewrite <- (firstn_skipn b med). apply in_or_app. auto.
    - rewrite <- (firstn_skipn (S b) med). apply in_or_app. auto.
  Qed.

  Lemma swaps_for_map med j : inr n med -> j < n -> swaps_for (map sg med) (sg j) = map (map sg) (swaps_for med j).
  Proof.
    intros hin hj. unfold swaps_for.
    assert (e : existsb (Nat.eqb (sg j)) (map sg med) = existsb (Nat.eqb j) med).
    { apply eq_true_iff_eq. rewrite !existsb_exists. split.
      - intros (x & hx & ex). apply Nat.eqb_eq in ex. apply in_map_iff in hx as (y & <- & hy).
        exists y. split; [auto|]. apply Nat.eqb_eq. apply sg_inj; auto.
      - intros (x & hx & ex). apply Nat.eqb_eq in ex. subst x. exists (sg j).
        split; [apply in_map; auto|apply Nat.eqb_refl]. }
    rewrite e. destruct (existsb (Nat.eqb j) med); [reflexivity|].
    rewrite map_length, map_map. apply map_ext. intros b. unfold swap.
    rewrite map_app, firstn_map, skipn_map. reflexivity.
  Qed.

  Lemma swaps_for_inr med j y : inr n med -> j < n -> In y (swaps_for med j) -> inr n y.
  Proof. intros hin hj hy. apply in_swaps_for in hy as (_ & b & _ & ->). apply inr_swap; auto. Qed.

  (** the searches *)
  Lemma eager_eq (b1 b2 : list nat -> list nat -> bool) order med maxiter :
    (forall a b, inr n a -> inr n b -> b2 (map sg a) (map sg b) = b1 a b) ->
    inr n med -> (forall j, In j order -> j < n) ->
    eager_swaps b2 (map sg order) (map sg med) maxiter = out (map sg) (eager_swaps b1 order med maxiter).
  Proof.
    intros hb hin ho. unfold eager_swaps.
    refine (proj1 (@search_map _ _ (inr n) (map sg) sg _ _ order _ maxiter med 0 0 hin)).
    intros x j hx hj. rewrite swaps_for_map by auto.
    apply improve_map with (P := inr n); auto. intros y. apply swaps_for_inr; auto.
  Qed.
End Compare.

(** scaling alone *)
Section Scale.
  Variables v1 v2 : diss.
  Variable n : nat.
  Variable c : Q.
  Hypothesis Hc : (0 < c)%Q.
  Hypothesis Hv : forall i j, i < n -> j < n -> (v2 i j == c * v1 i j)%Q.

  Lemma perm_id : Permutation (map (fun i => i) (seq 0 n)) (seq 0 n).
  Proof. rewrite map_id. reflexivity. Qed.

  Lemma tdev_scale med : inr n med -> (tdev v2 n med == c * tdev v1 n med)%Q.
  Proof. intros h. rewrite <- (map_id med) at 1. apply scaled_tdev; auto using perm_id. Qed.
  Lemma dev_scale a b : inr n a -> inr n b -> dev_better v2 n a b = dev_better v1 n a b.
  Proof. intros ha hb. apply scale_lt with (c := c); auto using tdev_scale. Qed.
  Lemma sil_scale a b : inr n a -> inr n b -> sil_better v2 n a b = sil_better v1 n a b.
  Proof.
    intros ha hb. rewrite <- (map_id a), <- (map_id b) at 1.
    apply sil_better_eq with (c := c) (sg := fun i => i); auto using perm_id.
  Qed.

  Lemma eager_scale (b1 b2 : list nat -> list nat -> bool) order med maxiter :
    (forall a b, inr n a -> inr n b -> b2 a b = b1 a b) -> inr n med -> (forall j, In j order -> j < n) ->
    eager_swaps b2 order med maxiter = eager_swaps b1 order med maxiter.
  Proof.
    intros hb hin ho.
    pose proof (@eager_eq n (fun i => i) perm_id b1 b2 order med maxiter) as h.
    rewrite !map_id in h. rewrite h; auto.
    - destruct (eager_swaps b1 order med maxiter) as [[a b] d]. unfold out. cbn. rewrite map_id. auto.
    - intros a b. rewrite !map_id. auto.
  Qed.

  Lemma best_scale (b1 b2 : list nat -> list nat -> bool) med maxiter :
    (forall a b, inr n a -> inr n b -> b2 a b = b1 a b) -> inr n med ->
    best_swaps b2 n med maxiter = best_swaps b1 n med maxiter.
  Proof.
    intros hb hin. unfold best_swaps.
    rewrite <- (out_id (descent (fun m => improve b1 (all_swaps n m) m) maxiter med 0 0)).
    refine (proj1 (@descent_map _ _ (inr n) (fun x => x) _ _ _ maxiter med 0 0 hin)).
    intros x hx. rewrite <- (map_id (all_swaps n x)) at 1.
    apply improve_map with (P := inr n) (h := fun x => x); auto.
    intros y hy. unfold all_swaps in hy. apply in_flat_map in hy as (j & hj & hy). apply in_seq in hj.
    eapply swaps_for_inr; eauto. lia.
  Qed.

  Lemma next_scale meds : inr n meds -> 1 <= n -> best_next v2 n meds = best_next v1 n meds /\ best_next v1 n meds < n.
  Proof.
    intros hin hn. unfold best_next.
    pose proof (@first_best_map _ _ (fun y => y < n) (fun y => y)
      (fun a b => dev_better v1 n (meds ++ [a]) (meds ++ [b]))
      (fun a b => dev_better v2 n (meds ++ [a]) (meds ++ [b])) (seq 1 (n - 1)) 0) as h.
    rewrite map_id in h. apply h; auto.
    - intros y z hy hz. apply dev_scale; apply inr_app; auto.
    - intros y hy. apply in_seq in hy. lia.
  Qed.

  Lemma grow_all_scale t meds : 1 <= n -> inr n meds -> grow_all v2 n t meds = grow_all v1 n t meds.
  Proof.
    intros hn. revert meds. induction t as [|t IH]; intros meds hin; [reflexivity|]. cbn [grow_all].
    destruct (next_scale hin hn) as [-> h]. apply IH. apply inr_app; auto.
  Qed.

  Lemma grow_scale cands t meds : (forall y, In y cands -> y < n) -> inr n meds ->
    grow v2 n cands t meds = grow v1 n cands t meds /\ inr n (grow v1 n cands t meds).
  Proof.
    intros hc. revert meds. induction t as [|t IH]; intros meds hin; [auto|]. cbn [grow].
    pose proof (@improve_map _ _ (inr n) (fun y => y) (dev_better v1 n) (dev_better v2 n)
      (map (fun y => meds ++ [y]) cands) meds) as h. rewrite map_id in h.
    destruct h as [-> hp].
    - intros y z hy hz. apply dev_scale; auto.
    - auto.
    - intros y hy. apply in_map_iff in hy as (x & <- & hx). apply inr_app; auto.
    - destruct (improve (dev_better v1 n) _ meds) as [m|]; cbn [option_map]; auto.
  Qed.

  Lemma cluster_of_scale med o : o < n -> inr n med -> cluster_of v2 med o = cluster_of v1 med o.
  Proof.
    intros ho hin. unfold cluster_of. destruct (find _ _); [reflexivity|].
    destruct med as [|m med]; [reflexivity|].
    pose proof (@first_best_map _ _ (fun y => y < length (m :: med)) (fun y => y)
      (fun a b => Qlt_bool (v1 o (nth a (m :: med) 0)) (v1 o (nth b (m :: med) 0)))
      (fun a b => Qlt_bool (v2 o (nth a (m :: med) 0)) (v2 o (nth b (m :: med) 0)))
      (seq 1 (length (m :: med) - 1)) 0) as h. rewrite map_id in h. apply h.
    - intros y z hy hz. apply scale_lt with (c := c); auto; apply Hv; auto; apply hin, nth_In; auto.
    - simpl. lia.
    - intros y hy. apply in_seq in hy. simpl in *. lia.
  Qed.
  Lemma clusters_scale med : inr n med -> clusters v2 n med = clusters v1 n med.
  Proof.
    intros hin. apply map_ext_in. intros o ho. apply in_seq in ho. apply cluster_of_scale; auto. lia.
  Qed.

  Lemma cost_scale assi k m : m < n -> (cluster_cost v2 n assi k m == c * cluster_cost v1 n assi k m)%Q.
  Proof.
    intros hm. unfold cluster_cost. rewrite <- sumQ_scale. apply sumQ_ext. intros i hi. apply in_seq in hi.
    destruct (nth i assi 0 =? k)%nat; [apply Hv; auto; lia|ring].
  Qed.
  Lemma row_scale m : m < n -> (row_total v2 n m == c * row_total v1 n m)%Q.
  Proof.
    intros hm. unfold row_total. rewrite <- sumQ_scale. apply sumQ_ext. intros i hi. apply in_seq in hi.
    apply Hv; auto. lia.
  Qed.

  Lemma center_scale assi k m : m < n -> center v2 n assi k m = center v1 n assi k m /\ center v1 n assi k m < n.
  Proof.
    intros hm. unfold center.
    pose proof (@first_best_map _ _ (fun y => y < n) (fun y => y) (cost_better v1 n assi k) (cost_better v2 n assi k)
      (members n assi k) m) as h. rewrite map_id in h. apply h; auto.
    - intros y z hy hz. apply scale_lt with (c := c); auto using cost_scale.
    - intros y hy. apply filter_In in hy as [hy _]. apply in_seq in hy. lia.
  Qed.
  Lemma single_scale x : x < n ->
    first_best (fun a b => Qlt_bool (row_total v2 n a) (row_total v2 n b)) (seq 0 n) x =
    first_best (fun a b => Qlt_bool (row_total v1 n a) (row_total v1 n b)) (seq 0 n) x.
  Proof.
    intros hx.
    pose proof (@first_best_map _ _ (fun y => y < n) (fun y => y)
      (fun a b => Qlt_bool (row_total v1 n a) (row_total v1 n b))
      (fun a b => Qlt_bool (row_total v2 n a) (row_total v2 n b)) (seq 0 n) x) as h. rewrite map_id in h. apply h; auto.
    - intros y z hy hz. apply scale_lt with (c := c); auto using row_scale.
    - intros y hy. apply in_seq in hy. lia.
  Qed.

  Lemma centers_scale assi med : inr n med ->
    centers v2 n assi med = centers v1 n assi med /\ inr n (centers v1 n assi med).
  Proof.
    intros hin. unfold centers. split.
    - apply map_ext_in. intros k hk. apply in_seq in hk. apply center_scale. apply hin, nth_In. lia.
    - intros m hm. apply in_map_iff in hm as (k & <- & hk). apply in_seq in hk. apply center_scale.
      apply hin, nth_In. lia.
  Qed.

  Lemma alternate_scale m med i : inr n med -> alternate v2 n m med i = alternate v1 n m med i.
  Proof.
    revert med i. induction m as [|m IH]; intros med i hin; [reflexivity|]. cbn [alternate].
    rewrite clusters_scale by auto. destruct (centers_scale (clusters v1 n med) hin) as [-> h].
    destruct (list_eq_dec Nat.eq_dec _ _); auto.
  Qed.
End Scale.
