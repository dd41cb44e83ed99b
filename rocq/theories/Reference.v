(** Reference.v -- reference algorithms: plain local searches over an objective function, written
    without the tables (nearest and second nearest medoids, removal losses, last swap) the
    implementations maintain.  Part of the specification: nothing here refers to the model. *)
From Coq Require Import QArith Lia.
From Verif Require Import Base Spec.
Set Implicit Arguments.
Open Scope nat_scope.

Definition Qlt_bool (a b : Q) : bool := negb (Qle_bool b a).

Section Choose.
  Variable T : Type.
  (** [better a b]: [a] is strictly better than [b] *)
  Variable better : T -> T -> bool.

  (** the first of the best elements of [x :: l] *)
  Definition first_best (l : list T) (x : T) : T :=
    fold_left (fun best y => if better y best then y else best) l x.

  (** the first of the best elements of [l], if it is better than [x] *)
  Definition improve (l : list T) (x : T) : option T :=
    let y := first_best l x in if better y x then Some y else None.
End Choose.

Section Search.
  Variable T : Type.

  (** First improvement: go through the candidates [order], taking every improvement at once;
      repeat until a pass brings none, at most [maxiter] times.  Result: end point, number of
      changes, number of passes. *)
  Variable try : T -> nat -> option T.

  Definition pass (order : list nat) (s : T * nat) : T * nat :=
    fold_left (fun s j => match try (fst s) j with Some y => (y, S (snd s)) | None => s end) order s.

  Fixpoint search (order : list nat) (maxiter : nat) (x : T) (swaps iter : nat) : T * nat * nat :=
    match maxiter with
    | 0 => (x, swaps, iter)
    | S m => let s := pass order (x, swaps) in
             if snd s =? swaps then (fst s, snd s, S iter) else search order m (fst s) (snd s) (S iter)
    end.

  (** Best improvement: take the best change, until there is none, at most [maxiter] times. *)
  Variable best : T -> option T.

  Fixpoint descent (maxiter : nat) (x : T) (swaps iter : nat) : T * nat * nat :=
    match maxiter with
    | 0 => (x, swaps, iter)
    | S m => match best x with
             | None => (x, swaps, S iter)
             | Some y => descent m y (S swaps) (S iter)
             end
    end.
End Search.

(** all results of replacing a medoid by [j], which must not be a medoid itself *)
Definition swaps_for (med : list nat) (j : nat) : list (list nat) :=
  if existsb (Nat.eqb j) med then [] else map (fun b => swap med b j) (seq 0 (length med)).

(** all results of a swap, by the new object, then by the position replaced *)
Definition all_swaps (n : nat) (med : list nat) : list (list nat) := flat_map (swaps_for med) (seq 0 n).

Definition dev_better (v : diss) (n : nat) (a b : list nat) : bool := Qlt_bool (tdev v n a) (tdev v n b).
Definition sil_better (v : diss) (n : nat) (a b : list nat) : bool := Qlt_bool (med_sil v n b) (med_sil v n a).

(** the searches over swaps, for either objective *)
Definition eager_swaps (better : list nat -> list nat -> bool) (order med : list nat) (maxiter : nat) :=
  search (fun m j => improve better (swaps_for m j) m) order maxiter med 0 0.
Definition best_swaps (better : list nat -> list nat -> bool) (n : nat) (med : list nat) (maxiter : nat) :=
  descent (fun m => improve better (all_swaps n m) m) maxiter med 0 0.

(** ** Greedy construction *)

(** the first of the objects which are best as a further medoid *)
Definition best_next (v : diss) (n : nat) (meds : list nat) : nat :=
  first_best (fun a b => dev_better v n (meds ++ [a]) (meds ++ [b])) (seq 1 (n - 1)) 0.

(** [t] further medoids, each the best one *)
Fixpoint grow_all (v : diss) (n t : nat) (meds : list nat) : list nat :=
  match t with 0 => meds | S t => grow_all v n t (meds ++ [best_next v n meds]) end.

(** at most [t] further medoids out of [cands], each the best one, as long as they are an improvement *)
Fixpoint grow (v : diss) (n : nat) (cands : list nat) (t : nat) (meds : list nat) : list nat :=
  match t with
  | 0 => meds
  | S t => match improve (dev_better v n) (map (fun y => meds ++ [y]) cands) meds with
           | None => meds
           | Some meds' => grow v n cands t meds'
           end
  end.

(** ** Alternating: nearest medoids, then best members of the clusters *)

(** the cluster of [o]: its own if [o] is a medoid, otherwise the first one with a nearest medoid *)
Definition cluster_of (v : diss) (med : list nat) (o : nat) : nat :=
  match find (fun c => nth c med 0 =? o) (seq 0 (length med)) with
  | Some c => c
  | None => first_best (fun a b => Qlt_bool (v o (nth a med 0)) (v o (nth b med 0))) (seq 1 (length med - 1)) 0
  end.
Definition clusters (v : diss) (n : nat) (med : list nat) : list nat := map (cluster_of v med) (seq 0 n).

(** the first of the members of cluster [c] with the smallest sum of dissimilarities to the members;
    [m], if it is one of them *)
Definition cost_better (v : diss) (n : nat) (assi : list nat) (c a b : nat) : bool :=
  Qlt_bool (cluster_cost v n assi c a) (cluster_cost v n assi c b).
Definition members (n : nat) (assi : list nat) (c : nat) : list nat :=
  filter (fun j => nth j assi 0 =? c) (seq 0 n).
Definition center (v : diss) (n : nat) (assi : list nat) (c m : nat) : nat :=
  first_best (cost_better v n assi c) (members n assi c) m.
Definition centers (v : diss) (n : nat) (assi med : list nat) : list nat :=
  map (fun c => center v n assi c (nth c med 0)) (seq 0 (length med)).

(** repeat until nothing changes, at most [maxiter] times; result: medoids, number of rounds *)
Fixpoint alternate (v : diss) (n maxiter : nat) (med : list nat) (iter : nat) : list nat * nat :=
  match maxiter with
  | 0 => (med, iter)
  | S m => let med' := centers v n (clusters v n med) med in
           if list_eq_dec Nat.eq_dec med' med then (med, S iter) else alternate v n m med' (S iter)
  end.

(** ** Facts *)
Lemma Qlt_bool_iff a b : Qlt_bool a b = true <-> (a < b)%Q.
Proof.
  unfold Qlt_bool. rewrite negb_true_iff. split; intros h.
  - apply Qnot_le_lt. intros c. apply Qle_bool_iff in c. congruence.
  - destruct (Qle_bool b a) eqn:e; auto. apply Qle_bool_iff in e. exfalso. apply (Qlt_not_le _ _ h e).
Qed.
Lemma Qlt_bool_false a b : Qlt_bool a b = false <-> (b <= a)%Q.
Proof.
  unfold Qlt_bool. rewrite negb_false_iff. apply Qle_bool_iff.
Qed.

Section ChooseFacts.
  Variable T : Type.
  Variable better : T -> T -> bool.
  Variable f : T -> Q.
  Hypothesis better_spec : forall a b, better a b = Qlt_bool (f a) (f b).

  Lemma first_best_none l x : (forall y, In y l -> (f x <= f y)%Q) -> first_best better l x = x.
  Proof.
    unfold first_best. induction l as [|y l IH]; intros h; simpl; [auto|].
    rewrite better_spec. replace (Qlt_bool (f y) (f x)) with false.
    - apply IH. intros z hz. apply h. simpl. auto.
    - symmetry. apply Qlt_bool_false, h. simpl. auto.
  Qed.

  Lemma first_best_le l x : (f (first_best better l x) <= f x)%Q.
  Proof.
    revert x. unfold first_best. induction l as [|y l IH]; intros x; simpl; [apply Qle_refl|].
    rewrite better_spec. destruct (Qlt_bool (f y) (f x)) eqn:e; [|apply IH].
    apply Qlt_bool_iff in e. eapply Qle_trans; [apply IH|]. apply Qlt_le_weak, e.
  Qed.

  Lemma first_best_split l1 y l2 x :
    (forall z, In z l1 -> (f y < f z)%Q) -> (forall z, In z l2 -> (f y <= f z)%Q) -> (f y < f x)%Q ->
    first_best better (l1 ++ y :: l2) x = y.
  Proof.
    revert x. induction l1 as [|z l1 IH]; intros x h1 h2 h3; unfold first_best in *; simpl.
    - rewrite better_spec. replace (Qlt_bool (f y) (f x)) with true by (symmetry; apply Qlt_bool_iff; auto).
      apply first_best_none. auto.
    - apply IH; auto.
      + intros w hw. apply h1. simpl. auto.
      + destruct (better z x); [|auto]. apply h1. simpl. auto.
  Qed.

  Lemma improve_none l x : (forall y, In y l -> (f x <= f y)%Q) -> improve better l x = None.
  Proof.
    intros h. unfold improve. rewrite first_best_none by auto. rewrite better_spec.
    replace (Qlt_bool (f x) (f x)) with false; [auto|]. symmetry. apply Qlt_bool_false. apply Qle_refl.
  Qed.

  Lemma improve_split l1 y l2 x :
    (forall z, In z l1 -> (f y < f z)%Q) -> (forall z, In z l2 -> (f y <= f z)%Q) -> (f y < f x)%Q ->
    improve better (l1 ++ y :: l2) x = Some y.
  Proof.
    intros h1 h2 h3. unfold improve. rewrite first_best_split by auto. rewrite better_spec.
    replace (Qlt_bool (f y) (f x)) with true; [auto|]. symmetry. apply Qlt_bool_iff. auto.
  Qed.
End ChooseFacts.

Lemma first_best_app T (better : T -> T -> bool) l1 l2 x :
  first_best better (l1 ++ l2) x = first_best better l2 (first_best better l1 x).
Proof. apply fold_left_app. Qed.

Lemma nth_map_seq A (f : nat -> A) k i d : i < k -> nth i (map f (seq 0 k)) d = f i.
Proof.
  intros h. rewrite nth_indep with (d' := f 0) by (rewrite map_length, seq_length; auto).
  rewrite map_nth, seq_nth by auto. reflexivity.
Qed.

Lemma seq_split a len x : a <= x < a + len -> seq a len = seq a (x - a) ++ x :: seq (S x) (a + len - S x).
Proof.
  intros h. replace len with ((x - a) + S (a + len - S x)) at 1 by lia. rewrite seq_app.
  replace (a + (x - a)) with x by lia. reflexivity.
Qed.

(** the first of the best indices *)
Lemma first_index (better : nat -> nat -> bool) (f : nat -> Q) k x :
  (forall a b, better a b = Qlt_bool (f a) (f b)) -> x < k ->
  (forall y, y < k -> (f x <= f y)%Q) -> (forall y, y < x -> (f x < f y)%Q) ->
  first_best better (seq 1 (k - 1)) 0 = x.
Proof.
  intros hb hx hle hlt. destruct x as [|x].
  - apply first_best_none with (f := f); [auto|]. intros y hy. apply in_seq in hy. apply hle. lia.
  - rewrite (@seq_split 1 (k - 1) (S x)) by lia. apply first_best_split with (f := f); auto.
    + intros y hy. apply in_seq in hy. apply hlt. lia.
    + intros y hy. apply in_seq in hy. apply hle. lia.
    + apply hlt. lia.
Qed.

(** the best further medoid, out of [a], ..., [a + len - 1] *)
Lemma grow_none v n a len meds :
  (forall y, a <= y < a + len -> (tdev v n meds <= tdev v n (meds ++ [y]))%Q) ->
  improve (dev_better v n) (map (fun y => meds ++ [y]) (seq a len)) meds = None.
Proof.
  intros h. apply improve_none with (f := tdev v n); [reflexivity|]. intros m hm.
  apply in_map_iff in hm as (y & <- & hy). apply in_seq in hy. auto.
Qed.
Lemma grow_some v n a len meds x : a <= x < a + len -> (tdev v n (meds ++ [x]) < tdev v n meds)%Q ->
  (forall y, a <= y < a + len -> (tdev v n (meds ++ [x]) <= tdev v n (meds ++ [y]))%Q) ->
  (forall y, a <= y < x -> (tdev v n (meds ++ [x]) < tdev v n (meds ++ [y]))%Q) ->
  improve (dev_better v n) (map (fun y => meds ++ [y]) (seq a len)) meds = Some (meds ++ [x]).
Proof.
  intros hx h1 h2 h3. rewrite (@seq_split a len x), map_app by auto. cbn [map].
  apply improve_split with (f := tdev v n); auto.
  - intros m hm. apply in_map_iff in hm as (y & <- & hy). apply in_seq in hy. apply h3. lia.
  - intros m hm. apply in_map_iff in hm as (y & <- & hy). apply in_seq in hy. apply h2. lia.
Qed.

(** the result only depends on the comparisons *)
Lemma first_best_ext T (b1 b2 : T -> T -> bool) l x :
  (forall a b, b1 a b = b2 a b) -> first_best b1 l x = first_best b2 l x.
Proof.
  intros h. revert x. induction l as [|y l IH]; intros x; [auto|]. cbn [first_best fold_left].
  rewrite h. apply IH.
Qed.
Lemma improve_ext T (b1 b2 : T -> T -> bool) (P : T -> Prop) l x :
  (forall y z, P y -> P z -> b1 y z = b2 y z) -> P x -> (forall y, In y l -> P y) ->
  improve b1 l x = improve b2 l x.
Proof.
  intros hb hx hl.
  assert (G : forall y, P y -> first_best b1 l y = first_best b2 l y /\ P (first_best b2 l y)).
  { unfold first_best. induction l as [|z l IH]; intros y hy; simpl; [auto|].
    assert (hz : P z) by (apply hl; simpl; auto). rewrite hb by auto. apply IH.
    - intros w hw. apply hl. simpl. auto.
    - destruct (b2 z y); auto. }
  unfold improve. destruct (G x hx) as [-> h2]. rewrite hb by auto. reflexivity.
Qed.

Lemma in_swaps_for med j m : In m (swaps_for med j) <-> ~ In j med /\ exists b, b < length med /\ m = swap med b j.
Proof.
  unfold swaps_for. destruct (existsb (Nat.eqb j) med) eqn:e.
  - apply existsb_exists in e as (x & hx & e). apply Nat.eqb_eq in e. subst x. split; [intros []|intros [h _]; tauto].
  - assert (hni : ~ In j med).
    { intros h. assert (h' : existsb (Nat.eqb j) med = true); [|congruence].
      apply existsb_exists. exists j. split; [auto|apply Nat.eqb_refl]. }
    rewrite in_map_iff. split.
    + intros (b & <- & hb). apply in_seq in hb. split; [auto|]. exists b. split; [lia|auto].
    + intros (_ & b & hb & ->). exists b. split; [auto|apply in_seq; lia].
Qed.

Lemma swaps_for_in med j : In j med -> swaps_for med j = [].
Proof.
  intros h. unfold swaps_for. replace (existsb (Nat.eqb j) med) with true; [auto|].
  symmetry. apply existsb_exists. exists j. split; [auto|apply Nat.eqb_refl].
Qed.

Lemma swaps_for_not_in med j : ~ In j med ->
  swaps_for med j = map (fun b => swap med b j) (seq 0 (length med)).
Proof.
  intros h. unfold swaps_for. destruct (existsb (Nat.eqb j) med) eqn:e; [|auto].
  apply existsb_exists in e as (x & hx & e). apply Nat.eqb_eq in e. subst x. tauto.
Qed.

(** the list of swaps for [j], split at position [b] *)
Lemma swaps_for_split med j b : ~ In j med -> b < length med ->
  swaps_for med j = map (fun c => swap med c j) (seq 0 b) ++ swap med b j ::
                    map (fun c => swap med c j) (seq (S b) (length med - S b)).
Proof.
  intros hj hb. rewrite swaps_for_not_in by auto.
  replace (length med) with (b + S (length med - S b)) at 1 by lia.
  rewrite seq_app, map_app. cbn [Nat.add seq map]. reflexivity.
Qed.

Lemma all_swaps_split n med j : j < n ->
  all_swaps n med = all_swaps j med ++ swaps_for med j ++ flat_map (swaps_for med) (seq (S j) (n - S j)).
Proof.
  intros hj. unfold all_swaps. replace n with (j + S (n - S j)) at 1 by lia.
  rewrite seq_app, flat_map_app. cbn [Nat.add seq flat_map]. reflexivity.
Qed.

Section Picks.
  Variable better : list nat -> list nat -> bool.
  Variable f : list nat -> Q.
  Hypothesis better_spec : forall a b, better a b = Qlt_bool (f a) (f b).

  Lemma eager_none med j : (~ In j med -> forall b, b < length med -> (f med <= f (swap med b j))%Q) ->
    improve better (swaps_for med j) med = None.
  Proof.
    intros h. apply improve_none with (f := f); [auto|]. intros y hy.
    apply in_swaps_for in hy as (hj & b & hb & ->). auto.
  Qed.

  Lemma eager_some med j b : ~ In j med -> b < length med -> (f (swap med b j) < f med)%Q ->
    (forall c, c < length med -> (f (swap med b j) <= f (swap med c j))%Q) ->
    (forall c, c < b -> (f (swap med b j) < f (swap med c j))%Q) ->
    improve better (swaps_for med j) med = Some (swap med b j).
  Proof.
    intros hj hb hlt hall hfirst. rewrite (@swaps_for_split med j b) by auto. apply improve_split with (f := f); auto.
    - intros z hz. apply in_map_iff in hz as (c & <- & hc). apply in_seq in hc. apply hfirst. lia.
    - intros z hz. apply in_map_iff in hz as (c & <- & hc). apply in_seq in hc. apply hall. lia.
  Qed.

  Lemma steep_none n med : (forall b j, b < length med -> j < n -> ~ In j med -> (f med <= f (swap med b j))%Q) ->
    improve better (all_swaps n med) med = None.
  Proof.
    intros h. apply improve_none with (f := f); [auto|]. intros y hy.
    apply in_flat_map in hy as (j & hj & hy). apply in_seq in hj.
    apply in_swaps_for in hy as (hjm & b & hb & ->). apply h; auto. lia.
  Qed.

  Lemma steep_some n med j b : ~ In j med -> j < n -> b < length med -> (f (swap med b j) < f med)%Q ->
    (forall j' c, j' < n -> ~ In j' med -> c < length med -> (f (swap med b j) <= f (swap med c j'))%Q) ->
    (forall j' c, j' < j -> ~ In j' med -> c < length med -> (f (swap med b j) < f (swap med c j'))%Q) ->
    (forall c, c < b -> (f (swap med b j) < f (swap med c j))%Q) ->
    improve better (all_swaps n med) med = Some (swap med b j).
  Proof.
    intros hjm hj hb hlt hall hfirst hfirst2. rewrite (@all_swaps_split n med j), (@swaps_for_split med j b) by auto.
    rewrite <- app_assoc. cbn [app]. rewrite app_assoc.
    apply improve_split with (f := f); auto.
    - intros z hz. apply in_app_iff in hz as [hz|hz].
      + apply in_flat_map in hz as (j' & hj' & hz). apply in_seq in hj'.
        apply in_swaps_for in hz as (hjm' & c & hc & ->). apply hfirst; auto. lia.
      + apply in_map_iff in hz as (c & <- & hc). apply in_seq in hc. apply hfirst2. lia.
    - intros z hz. apply in_app_iff in hz as [hz|hz].
      + apply in_map_iff in hz as (c & <- & hc). apply in_seq in hc. apply hall; auto. lia.
      + apply in_flat_map in hz as (j' & hj' & hz). apply in_seq in hj'.
        apply in_swaps_for in hz as (hjm' & c & hc & ->). apply hall; auto. lia.
  Qed.
End Picks.
