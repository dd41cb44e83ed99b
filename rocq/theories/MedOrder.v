(** MedOrder.v -- the searches over swaps from the same medoids in another order, if different sets of medoids have different values.
    About the reference algorithms only. *)
From Coq Require Import QArith Lqa Lia Permutation.
From Verif Require Import Base Spec SpecFacts Reference FloatSep NearlyAll.
Set Implicit Arguments.
Open Scope nat_scope.

(** different sets of [k] medoids have different values *)
Definition distinct_values (f : list nat -> Q) (n k : nat) : Prop :=
  forall a b, medoids n k a -> medoids n k b -> (f a == f b)%Q -> Permutation a b.

Section Order.
  Variables (n k : nat).
  Variable better : list nat -> list nat -> bool.
  Variable f : list nat -> Q.
  Hypothesis better_spec : forall a b, better a b = Qlt_bool (f a) (f b).
  Hypothesis f_perm : forall a b, medoids n k a -> medoids n k b -> Permutation a b -> (f a == f b)%Q.
  Hypothesis Hdist : distinct_values f n k.

  (** the same medoids, in any order *)
  Definition alike (a b : list nat) : Prop := medoids n k a /\ medoids n k b /\ Permutation a b.

  Definition covered (l l' : list (list nat)) : Prop := forall x, In x l -> exists y, In y l' /\ alike x y.

  Lemma alike_sym a b : alike a b -> alike b a.
  Proof. intros (h1 & h2 & h3). split; [auto|split; [auto|apply Permutation_sym; exact h3]]. Qed.

  Lemma first_best_alike l l' x x' : alike x x' -> covered l l' -> covered l' l ->
    alike (first_best better l x) (first_best better l' x').
  Proof.
    intros hx hl hl'.
    assert (G : forall l l' x x', alike x x' -> covered l l' -> covered l' l ->
      medoids n k (first_best better l x) /\ (f (first_best better l x) <= f (first_best better l' x'))%Q).
    { clear l l' x x' hx hl hl'. intros l l' x x' hx hl hl'. split.
      - destruct (first_best_in better l x) as [<-|h]; [apply hx|]. destruct (hl _ h) as (y & _ & hy). apply hy.
      - destruct (first_best_in better l' x') as [<-|h].
        + rewrite <- (f_perm (proj1 hx) (proj1 (proj2 hx)) (proj2 (proj2 hx))). apply first_best_le. exact better_spec.
        + destruct (hl' _ h) as (y & hy & ha). rewrite (f_perm (proj1 ha) (proj1 (proj2 ha)) (proj2 (proj2 ha))).
          apply first_best_all; auto. }
    destruct (G l l' x x' hx hl hl') as [g1 g2]. destruct (G l' l x' x (alike_sym hx) hl' hl) as [g3 g4].
    split; [exact g1|]. split; [exact g3|]. apply Hdist; auto. apply Qle_antisym; auto.
  Qed.

  Lemma improve_alike l l' x x' : alike x x' -> covered l l' -> covered l' l ->
    match improve better l x, improve better l' x' with
    | Some y, Some y' => alike y y' | None, None => True | _, _ => False end.
  Proof.
    intros hx hl hl'. pose proof (first_best_alike hx hl hl') as h. unfold improve.
    assert (e : better (first_best better l x) x = better (first_best better l' x') x').
    { rewrite !better_spec. apply Bool.eq_true_iff_eq. rewrite !Qlt_bool_iff.
      destruct h as (h1 & h2 & h3). destruct hx as (x1 & x2 & x3). rewrite (f_perm h1 h2 h3), (f_perm x1 x2 x3). reflexivity. }
    rewrite <- e. destruct (better _ x); auto.
  Qed.

  Lemma swaps_for_covered m m' j : alike m m' -> j < n -> covered (swaps_for m j) (swaps_for m' j).
  Proof.
    intros (hm & hm' & hp) hj x hx. unfold swaps_for in *.
    destruct (existsb (Nat.eqb j) m) eqn:e; [destruct hx|]. apply in_map_iff in hx as (b & <- & hb). apply in_seq in hb.
    assert (hni : ~ In j m).
    { intros h. assert (existsb (Nat.eqb j) m = true) by (apply existsb_exists; exists j; split; [exact h|apply Nat.eqb_refl]). congruence. }
    assert (hni' : ~ In j m') by (intros h; apply hni, (Permutation_in _ (Permutation_sym hp)), h).
    assert (e' : existsb (Nat.eqb j) m' = false).
    { destruct (existsb (Nat.eqb j) m') eqn:e'; [|reflexivity]. apply existsb_exists in e' as (y & hy & ey).
      apply Nat.eqb_eq in ey. subst. contradiction. }
    rewrite e'. assert (hin : In (nth b m 0) m') by (apply (Permutation_in _ hp), nth_In; lia).
    apply (In_nth _ _ 0) in hin as (b' & hb' & eb). exists (swap m' b' j). split.
    - apply in_map_iff. exists b'. split; [reflexivity|]. apply in_seq. lia.
    - assert (s1 : medoids n k (swap m b j)) by (apply medoids_swap; auto; destruct hm; lia).
      assert (s2 : medoids n k (swap m' b' j)) by (apply medoids_swap; auto; destruct hm'; lia).
      split; [exact s1|]. split; [exact s2|]. apply NoDup_Permutation; [apply s1|apply s2|].
      intros y. rewrite !in_swap by (try apply hm; try apply hm'; lia). rewrite eb.
      split; (intros [->|[h1 h2]]; [left; reflexivity|right; split; [|exact h2]]);
        [apply (Permutation_in _ hp h1)|apply (Permutation_in _ (Permutation_sym hp) h1)].
  Qed.

  Lemma all_swaps_covered m m' : alike m m' -> covered (all_swaps n m) (all_swaps n m').
  Proof.
    intros ha x hx. unfold all_swaps in *. apply in_flat_map in hx as (j & hj & hx).
    assert (hjn : j < n) by (apply in_seq in hj; lia).
    destruct (swaps_for_covered ha hjn x hx) as (y & hy & h). exists y. split; [|exact h]. apply in_flat_map. exists j. auto.
  Qed.

  Definition alike_end (r r' : list nat * nat * nat) : Prop :=
    alike (fst (fst r)) (fst (fst r')) /\ snd (fst r) = snd (fst r') /\ snd r = snd r'.

  Lemma pass_alike order m m' s : (forall j, In j order -> j < n) -> alike m m' ->
    let p := pass (fun m j => improve better (swaps_for m j) m) order (m, s) in
    let p' := pass (fun m j => improve better (swaps_for m j) m) order (m', s) in
    alike (fst p) (fst p') /\ snd p = snd p'.
  Proof.
    revert m m' s. unfold pass. induction order as [|j order IH]; intros m m' s ho ha; cbn [fold_left]; [auto|].
    assert (hj : j < n) by (apply ho; left; reflexivity).
    pose proof (improve_alike ha (swaps_for_covered ha hj) (swaps_for_covered (alike_sym ha) hj)) as h. cbn [fst snd].
    assert (ho' : forall j, In j order -> j < n) by (intros i hi; apply ho; right; exact hi).
    destruct (improve better (swaps_for m j) m), (improve better (swaps_for m' j) m'); try contradiction; apply IH; auto.
  Qed.

  Lemma eager_alike order m m' maxiter : (forall j, In j order -> j < n) -> alike m m' ->
    alike_end (eager_swaps better order m maxiter) (eager_swaps better order m' maxiter).
  Proof.
    intros ho. unfold eager_swaps. generalize 0 at 1 3. generalize 0. revert m m'.
    induction maxiter as [|mi IH]; intros m m' it s ha; cbn [search]; [repeat split; apply ha|].
    destruct (@pass_alike order m m' s ho ha) as [h1 h2]. cbv zeta in *. rewrite <- h2. destruct (_ =? s); [split; auto|]. apply IH. exact h1.
  Qed.

  Lemma best_alike m m' maxiter : alike m m' -> alike_end (best_swaps better n m maxiter) (best_swaps better n m' maxiter).
  Proof.
    unfold best_swaps. generalize 0 at 1 3. generalize 0. revert m m'.
    induction maxiter as [|mi IH]; intros m m' it s ha; cbn [descent]; [repeat split; apply ha|].
    pose proof (improve_alike ha (all_swaps_covered ha) (all_swaps_covered (alike_sym ha))) as h.
    destruct (improve better (all_swaps n m) m), (improve better (all_swaps n m') m'); try contradiction; [apply IH; exact h|].
    split; auto.
  Qed.
End Order.
