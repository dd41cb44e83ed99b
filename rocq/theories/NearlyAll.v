(** NearlyAll.v -- swap searches with all objects but one as medoids: any other such set is one swap away, so the first swap which
    is chosen as the best one for the missing object is the last one.  About the reference algorithms only. *)
From Coq Require Import QArith Lqa Lia Permutation.
From Verif Require Import Base Spec SpecFacts Reference FloatSep.
Set Implicit Arguments.
Open Scope nat_scope.

(** the object which is not a medoid *)
Lemma missing n k med : n = S k -> medoids n k med ->
  exists x, x < n /\ ~ In x med /\ forall y, y < n -> y <> x -> In y med.
Proof.
  intros hn (hl & hnd & hin).
  destruct (List.Forall_Exists_dec (fun y => In y med) (fun y => in_dec Nat.eq_dec y med) (seq 0 n)) as [h|h].
  - exfalso. rewrite Forall_forall in h. pose proof (NoDup_incl_length (seq_NoDup n 0) h) as hlen.
    rewrite seq_length in hlen. lia.
  - apply Exists_exists in h as (x & hx & hni). apply in_seq in hx. exists x. split; [lia|]. split; [exact hni|].
    assert (hi : incl (seq 0 n) (x :: med)).
    { apply NoDup_length_incl; [constructor; assumption|rewrite seq_length; simpl; lia|].
      intros y [<-|hy]; apply in_seq; [lia|]. specialize (hin _ hy). lia. }
    intros y hy hne. destruct (hi y) as [->|h]; [apply in_seq; lia|congruence|exact h].
Qed.

Section Away.
  Variables (n k : nat).
  Hypothesis Hn : n = S k.
  Variable better : list nat -> list nat -> bool.
  Variable f : list nat -> Q.
  Hypothesis better_spec : forall a b, better a b = Qlt_bool (f a) (f b).
  Hypothesis f_set : forall a b, medoids n k a -> medoids n k b -> same_set a b -> (f a == f b)%Q.

  (** no set of [k] medoids is better *)
  Definition best_set (m : list nat) : Prop := forall m', medoids n k m' -> (f m <= f m')%Q.

  (** every other set is one swap away *)
  Lemma one_away med x m' : medoids n k med -> x < n -> ~ In x med -> medoids n k m' ->
    (f med == f m')%Q \/ exists b, b < k /\ (f (swap med b x) == f m')%Q.
  Proof.
    intros hm hx hni hm'. destruct (missing Hn hm) as (x0 & hx0 & hni0 & hall).
    assert (x0 = x) as ->. { destruct (Nat.eq_dec x0 x) as [|hne]; [assumption|]. exfalso. apply hni, hall; auto. }
    destruct (missing Hn hm') as (y & hy & hniy & hally). destruct (Nat.eq_dec y x) as [->|hne].
    - left. apply f_set; auto. intros z. split; intros hz.
      + apply hally; [apply hm; exact hz|intros ->; auto].
      + apply hall; [apply hm'; exact hz|intros ->; auto].
    - right. destruct (proj1 (nth_In_iff med y) (hall y hy hne)) as (b & hb & e). rewrite (proj1 hm) in hb.
      exists b. split; [exact hb|]. apply f_set; auto; [apply medoids_swap; auto|].
      intros z. rewrite in_swap by (try apply hm; rewrite (proj1 hm); exact hb). split.
      + intros [->|[hz hzy]]; [apply hally; auto|]. apply hally; [apply hm; exact hz|congruence].
      + intros hz. destruct (Nat.eq_dec z x) as [->|hzx]; [left; reflexivity|right].
        split; [apply hall; [apply hm'; exact hz|exact hzx]|]. rewrite e. intros ->. auto.
  Qed.

  Lemma first_best_in l x : In (first_best better l x) (x :: l).
  Proof.
    revert x. unfold first_best. induction l as [|y l IH]; intros x; cbn [fold_left]; [left; reflexivity|].
    specialize (IH (if better y x then y else x)). destruct IH as [<-|h]; [|right; right; exact h].
    destruct (better y x); [right; left|left]; reflexivity.
  Qed.

  Lemma first_best_all l x y : In y l -> (f (first_best better l x) <= f y)%Q.
  Proof.
    intros hy. apply in_split in hy as (l1 & l2 & ->). rewrite first_best_app. cbn [first_best fold_left].
    change (first_best better (y :: l2) (first_best better l1 x)) with
      (first_best better l2 (if better y (first_best better l1 x) then y else first_best better l1 x)).
    eapply Qle_trans; [apply first_best_le with (f := f); exact better_spec|].
    destruct (better y (first_best better l1 x)) eqn:e; [apply Qle_refl|].
    rewrite better_spec in e. apply Qlt_bool_false in e. exact e.
  Qed.

  (** the swaps for the missing object, and nothing else *)
  Definition covers_swaps (med : list nat) (l : list (list nat)) : Prop :=
    (forall m, In m l -> exists b x, b < k /\ x < n /\ ~ In x med /\ m = swap med b x) /\
    (forall x b, x < n -> ~ In x med -> b < k -> In (swap med b x) l).

  Lemma improve_covers med l : medoids n k med -> covers_swaps med l ->
    match improve better l med with Some m => medoids n k m /\ best_set m | None => best_set med end.
  Proof.
    intros hm [h1 h2]. destruct (missing Hn hm) as (x & hx & hni & _).
    assert (hb : best_set (first_best better l med)).
    { intros m' hm'. destruct (one_away hm hx hni hm') as [<-|(b & hb & <-)].
      - apply first_best_le. exact better_spec.
      - apply first_best_all. auto. }
    unfold improve. destruct (better (first_best better l med) med) eqn:e.
    - split; [|exact hb]. destruct (first_best_in l med) as [<-|h]; [exact hm|].
      apply h1 in h as (b & y & hb' & hy & hny & ->). apply medoids_swap; auto.
    - rewrite better_spec in e. apply Qlt_bool_false in e. intros m' hm'. eapply Qle_trans; [exact e|]. apply hb, hm'.
  Qed.

  Lemma improve_best med l : (forall m, In m l -> medoids n k m) -> best_set med -> improve better l med = None.
  Proof. intros hl hb. apply improve_none with (f := f); [exact better_spec|]. intros y hy. apply hb, hl, hy. Qed.

  Lemma swaps_for_medoids med j m : medoids n k med -> j < n -> In m (swaps_for med j) -> medoids n k m.
  Proof.
    intros hm hj h. apply in_swaps_for in h as (hni & b & hb & ->). apply medoids_swap; auto. rewrite <- (proj1 hm). exact hb.
  Qed.
  Lemma all_swaps_medoids med m : medoids n k med -> In m (all_swaps n med) -> medoids n k m.
  Proof.
    intros hm h. apply in_flat_map in h as (j & hj & h). apply in_seq in hj. eapply swaps_for_medoids; [exact hm| |exact h]. lia.
  Qed.

  Lemma swaps_for_cover med j : medoids n k med -> j < n -> ~ In j med -> covers_swaps med (swaps_for med j).
  Proof.
    intros hm hj hni. split.
    - intros m h. apply in_swaps_for in h as (_ & b & hb & ->). exists b, j. rewrite (proj1 hm) in hb. auto.
    - intros x b hx hnx hb. apply in_swaps_for.
      assert (x = j) as ->.
      { destruct (missing Hn hm) as (z & hz & hnz & hall).
        destruct (Nat.eq_dec x z) as [->|h]; [|destruct hnx; auto]. destruct (Nat.eq_dec j z) as [|h]; [auto|destruct hni; auto]. }
      split; [exact hni|]. exists b. rewrite (proj1 hm). auto.
  Qed.
  Lemma all_swaps_cover med : medoids n k med -> covers_swaps med (all_swaps n med).
  Proof.
    intros hm. split.
    - intros m h. apply in_flat_map in h as (j & hj & h). apply in_seq in hj.
      apply in_swaps_for in h as (hni & b & hb & ->). exists b, j. rewrite (proj1 hm) in hb. repeat split; auto; lia.
    - intros x b hx hnx hb. apply in_flat_map. exists x. split; [apply in_seq; lia|]. apply in_swaps_for. split; [exact hnx|].
      exists b. rewrite (proj1 hm). auto.
  Qed.

  (** ** first improvement *)
  Let tryf := fun m j => improve better (swaps_for m j) m.

  Lemma pass_best order m s : medoids n k m -> best_set m -> (forall j, In j order -> j < n) -> pass tryf order (m, s) = (m, s).
  Proof.
    intros hm hb. induction order as [|j order IH]; intros ho; [reflexivity|]. unfold pass in *. cbn [fold_left fst snd].
    unfold tryf at 2. rewrite improve_best; auto.
    - apply IH. intros i hi. apply ho. right. exact hi.
    - intros m' h. eapply swaps_for_medoids; [exact hm| |exact h]. apply ho. left. reflexivity.
  Qed.

  Lemma pass_one order m s : medoids n k m -> (forall j, In j order -> j < n) -> (forall j, j < n -> ~ In j m -> In j order) ->
    exists m' s', pass tryf order (m, s) = (m', s') /\ medoids n k m' /\ best_set m' /\ ((m' = m /\ s' = s) \/ s' = S s).
  Proof.
    intros hm. induction order as [|j order IH]; intros ho hx.
    - destruct (missing Hn hm) as (x & h1 & h2 & _). destruct (hx x h1 h2).
    - destruct (in_dec Nat.eq_dec j m) as [hj|hj].
      + destruct IH as (m' & s' & e & h).
        { intros i hi. apply ho. right. exact hi. }
        { intros i hi hni. destruct (hx i hi hni) as [->|h]; [contradiction|exact h]. }
        exists m', s'. split; [|exact h]. rewrite <- e. unfold pass at 1. cbn [fold_left fst snd]. unfold tryf at 2.
        rewrite swaps_for_in by exact hj. replace (improve better [] m) with (@None (list nat)); [reflexivity|].
        symmetry. apply improve_none with (f := f); [exact better_spec|]. intros y [].
      + assert (hjn : j < n) by (apply ho; left; reflexivity).
        assert (ho' : forall i, In i order -> i < n) by (intros i hi; apply ho; right; exact hi).
        pose proof (improve_covers hm (swaps_for_cover hm hjn hj)) as h.
        destruct (improve better (swaps_for m j) m) as [y|] eqn:e.
        * destruct h as [h1 h2]. exists y, (S s). split; [|auto]. assert (ep : pass tryf order (y, S s) = (y, S s)) by (apply pass_best; auto). rewrite <- ep.
          unfold pass at 1. cbn [fold_left fst snd]. unfold tryf at 2. rewrite e. reflexivity.
        * exists m, s. split; [|auto]. assert (ep : pass tryf order (m, s) = (m, s)) by (apply pass_best; auto). rewrite <- ep at 2.
          unfold pass at 1. cbn [fold_left fst snd]. unfold tryf at 2. rewrite e. reflexivity.
  Qed.

  Lemma eager_one order med maxiter : medoids n k med -> 1 <= maxiter -> (forall j, j < n <-> In j order) ->
    exists m s, eager_swaps better order med maxiter = (m, s, Nat.min (S s) maxiter) /\
      medoids n k m /\ best_set m /\ s <= 1 /\ (s = 0 -> m = med).
  Proof.
    intros hm hmi ho. destruct maxiter as [|mi]; [lia|].
    assert (hp : exists m s, pass tryf order (med, 0) = (m, s) /\ medoids n k m /\ best_set m /\ ((m = med /\ s = 0) \/ s = 1)).
    { apply pass_one; [exact hm|intros j; apply ho|intros j hj _; apply ho; exact hj]. }
    destruct hp as (m & s & e & h1 & h2 & h3).
    unfold eager_swaps. cbn [search]. change (fun m j => improve better (swaps_for m j) m) with tryf. rewrite e. cbn [fst snd].
    destruct h3 as [[-> ->]| ->]; cbn [Nat.eqb].
    - exists med, 0. replace (Nat.min 1 (S mi)) with 1 by lia. auto 10.
    - exists m, 1. split; [|split; [exact h1|split; [exact h2|split; [lia|discriminate]]]].
      destruct mi as [|mi]; [reflexivity|]. cbn [search]. rewrite pass_best; [|exact h1|exact h2|intros j; apply ho].
      reflexivity.
  Qed.

  (** ** best improvement *)
  Lemma best_one med maxiter : medoids n k med -> 1 <= maxiter ->
    exists m s, best_swaps better n med maxiter = (m, s, Nat.min (S s) maxiter) /\
      medoids n k m /\ best_set m /\ s <= 1 /\ (s = 0 -> m = med).
  Proof.
    intros hm hmi. destruct maxiter as [|mi]; [lia|]. unfold best_swaps. cbn [descent].
    pose proof (improve_covers hm (all_swaps_cover hm)) as h. destruct (improve better (all_swaps n med) med) as [m|].
    - destruct h as [h1 h2]. exists m, 1. split; [|split; [exact h1|split; [exact h2|split; [lia|discriminate]]]].
      destruct mi as [|mi]; [reflexivity|]. cbn [descent]. rewrite improve_best; [reflexivity| |exact h2].
      intros m' hm'. eapply all_swaps_medoids; [exact h1|exact hm'].
    - exists med, 0. replace (Nat.min 1 (S mi)) with 1 by lia. auto 10.
  Qed.
End Away.

(** the loss of all objects but one is the distance of that one to its nearest neighbor *)
Lemma tdev_missing v n k med x : n = S k -> dissimilarity n v -> medoids n k med -> x < n -> ~ In x med ->
  (tdev v n med == mindist v x med)%Q.
Proof.
  intros hn hv hm hx hni. destruct (missing hn hm) as (x0 & hx0 & _ & hall).
  assert (x0 = x) as ->. { destruct (Nat.eq_dec x0 x) as [|hne]; [assumption|]. exfalso. apply hni. apply hall; auto. }
  unfold tdev. rewrite (@seq_split 0 n x) by lia. rewrite sumQ_app.
  change (sumQ (fun o => mindist v o med) (x :: seq (S x) (0 + n - S x))) with
    (mindist v x med + sumQ (fun o => mindist v o med) (seq (S x) (0 + n - S x)))%Q.
  assert (hz : forall l, (forall o, In o l -> o < n /\ o <> x) -> (sumQ (fun o => mindist v o med) l == 0)%Q).
  { intros l hl. rewrite <- (sumQ_zero l). apply sumQ_ext. intros o ho. destruct (hl o ho) as [h1 h2].
    apply mindist_self with (n := n); auto. apply hm. }
  rewrite (hz (seq 0 (x - 0))); [|intros o ho; apply in_seq in ho; lia].
  rewrite (hz (seq (S x) _)); [|intros o ho; apply in_seq in ho; lia]. lra.
Qed.

Lemma sumQ_one_le (g : nat -> Q) l x : (forall o, In o l -> (0 <= g o)%Q) -> In x l -> (g x <= sumQ g l)%Q.
Proof.
  induction l as [|y l IH]; intros h hx; [destruct hx|].
  change (sumQ g (y :: l)) with (g y + sumQ g l)%Q. pose proof (h y (or_introl eq_refl)) as hy.
  assert (hl : (0 <= sumQ g l)%Q) by (apply sumQ_nonneg; intros o ho; apply h; right; exact ho).
  destruct hx as [->|hx]; [lra|]. specialize (IH (fun o ho => h o (or_intror ho)) hx). lra.
Qed.
