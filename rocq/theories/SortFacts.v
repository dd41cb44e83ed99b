(** SortFacts.v -- facts about the sorting function of Spec.v and the two smallest elements *)
From Coq Require Import ZArith QArith Qminmax Lqa Lia Permutation.
From Verif Require Import Base Hoare Spec SpecFacts.
Set Implicit Arguments.
Open Scope Q_scope.

Lemma insertQ_perm x l : Permutation (x :: l) (insertQ x l).
Proof.
  induction l as [|y l IH]; simpl; [auto|]. destruct (Qle_bool x y); [auto|].
  eapply perm_trans; [apply perm_swap|]. auto.
Qed.

Lemma sortQ_perm l : Permutation l (sortQ l).
Proof.
  induction l as [|x l IH]; simpl; [auto|]. eapply perm_trans; [|apply insertQ_perm]. auto.
Qed.

Fixpoint sorted (l : list Q) : Prop :=
  match l with [] => True | x :: l' => (forall y, In y l' -> x <= y) /\ sorted l' end.

Lemma insertQ_sorted x l : sorted l -> sorted (insertQ x l).
Proof.
  induction l as [|y l IH]; cbn [insertQ sorted]; intros h; [simpl; tauto|].
  destruct (Qle_bool x y) eqn:e.
  - apply Qle_bool_iff in e. cbn [sorted]. split; [|exact h]. intros z [<-|hz]; [auto|].
    destruct h as [h _]. apply h in hz. lra.
  - destruct h as [h1 h2]. cbn [sorted]. split; [|auto]. intros z hz.
    apply (Permutation_in _ (Permutation_sym (insertQ_perm x l))) in hz. destruct hz as [<-|hz]; [|auto].
    assert (h : ~ (x <= y)) by (intros c; apply Qle_bool_iff in c; congruence). lra.
Qed.

Lemma sortQ_sorted l : sorted (sortQ l).
Proof. induction l as [|x l IH]; cbn; [auto|]. apply insertQ_sorted. auto. Qed.

(** number of elements below [c] *)
Definition below (c : Q) (l : list Q) : nat := length (filter (fun x => negb (Qle_bool c x)) l).

Lemma below_perm c l1 l2 : Permutation l1 l2 -> below c l1 = below c l2.
Proof.
  unfold below. induction 1; simpl; auto.
  - destruct (negb (Qle_bool c x)); simpl; auto.
  - destruct (negb (Qle_bool c x)), (negb (Qle_bool c y)); simpl; auto.
  - congruence.
Qed.

Lemma below_lt c x l : x < c -> below c (x :: l) = S (below c l).
Proof.
  intros h. unfold below. simpl. destruct (Qle_bool c x) eqn:e; simpl; auto.
  apply Qle_bool_iff in e. lra.
Qed.
Lemma below_ge c x l : c <= x -> below c (x :: l) = below c l.
Proof. intros h. unfold below. simpl. apply Qle_bool_iff in h. rewrite h. auto. Qed.
Lemma below_none c l : (forall x, In x l -> c <= x) -> below c l = 0%nat.
Proof.
  induction l as [|x l IH]; intros h; [reflexivity|]. rewrite below_ge by (apply h; simpl; auto).
  apply IH. intros y hy. apply h. simpl. auto.
Qed.
Lemma below_cons_le c x l : (below c (x :: l) <= S (below c l))%nat.
Proof. unfold below. simpl. destruct (negb (Qle_bool c x)); simpl; lia. Qed.
Lemma below_cons_ge c x l : (below c l <= below c (x :: l))%nat.
Proof. unfold below. simpl. destruct (negb (Qle_bool c x)); simpl; lia. Qed.

(** [a <= b] are the two smallest elements of [l] *)
Definition two_least (l : list Q) (a b : Q) : Prop :=
  exists rest, Permutation l (a :: b :: rest) /\ a <= b /\ forall x, In x rest -> b <= x.

Lemma two_least_sort l a b : two_least l a b -> nth 0 (sortQ l) 0 == a /\ nth 1 (sortQ l) 0 == b.
Proof.
  intros (rest & hp & hab & hr).
  assert (hq : Permutation (sortQ l) (a :: b :: rest)).
  { eapply perm_trans; [apply Permutation_sym, sortQ_perm|]. auto. }
  pose proof (sortQ_sorted l) as hs. destruct (sortQ l) as [|p [|q r]].
  - apply Permutation_nil in hq. discriminate.
  - apply Permutation_length in hq. simpl in hq. lia.
  - cbn [nth]. destruct hs as (h1 & h2 & _).
    assert (hpq : p <= q) by (apply h1; simpl; auto).
    split; apply Qle_antisym.
    + assert (hin : In a (p :: q :: r)) by (apply (Permutation_in _ (Permutation_sym hq)); simpl; auto).
      destruct hin as [<-|hin]; [lra|]. auto.
    + assert (hin : In p (a :: b :: rest)) by (apply (Permutation_in _ hq); simpl; auto).
      destruct hin as [<-|[<-|hin]]; [lra|lra|]. apply hr in hin. lra.
    + apply Qnot_lt_le. intros hlt.
      pose proof (below_perm q hq) as hb.
      rewrite (below_lt (x := a)) in hb by lra. rewrite (below_lt (x := b)) in hb by lra.
      pose proof (below_cons_le q p (q :: r)) as h3. rewrite (below_ge (x := q)) in h3 by lra.
      rewrite (below_none r) in h3 by auto. lia.
    + apply Qnot_lt_le. intros hlt.
      pose proof (below_perm b hq) as hb.
      rewrite (below_lt (x := p)) in hb by lra. rewrite (below_lt (x := q)) in hb by lra.
      pose proof (below_cons_le b a (b :: rest)) as h3. rewrite (below_ge (x := b)) in h3 by lra.
      rewrite (below_none rest) in h3 by auto. lia.
Qed.

Lemma two_least_pair a b : a <= b -> two_least [a; b] a b.
Proof. intros h. exists []. split; [auto|]. split; [auto|]. simpl. tauto. Qed.

Lemma two_least_pair' a b : b <= a -> two_least [a; b] b a.
Proof. intros h. exists []. split; [apply perm_swap|]. split; [auto|]. simpl. tauto. Qed.

Lemma two_least_snoc l a b d : two_least l a b ->
  (d <= a -> two_least (l ++ [d]) d a) /\
  (a <= d <= b -> two_least (l ++ [d]) a d) /\
  (b <= d -> two_least (l ++ [d]) a b).
Proof.
  intros (rest & hp & hab & hr).
  assert (hq : Permutation (l ++ [d]) (d :: a :: b :: rest)).
  { eapply perm_trans; [apply Permutation_app_comm|]. simpl. auto. }
  split; [|split]; intros hd.
  - exists (b :: rest). split; [auto|]. split; [auto|]. intros x [<-|hx]; [auto|]. apply hr in hx. lra.
  - exists (b :: rest). split; [eapply perm_trans; [apply hq|apply perm_swap]|]. split; [lra|].
    intros x [<-|hx]; [lra|]. apply hr in hx. lra.
  - exists (d :: rest). split.
    + eapply perm_trans; [apply hq|]. eapply perm_trans; [apply perm_swap|]. apply perm_skip, perm_swap.
    + split; [auto|]. intros x [<-|hx]; auto.
Qed.

(** by positions *)
Lemma nth_perm A (l : list A) a d : (a < length l)%nat ->
  exists rest, Permutation l (nth a l d :: rest) /\
    forall x, In x rest -> exists c, (c < length l)%nat /\ c <> a /\ nth c l d = x.
Proof.
  revert a. induction l as [|y l IH]; intros a h; simpl in h; [lia|]. destruct a as [|a].
  - exists l. split; [auto|]. intros x hx. apply In_nth with (d := d) in hx as (c & hc & e).
    exists (S c). simpl. split; [lia|]. split; [lia|auto].
  - destruct (IH a) as (rest & hp & hr); [lia|]. exists (y :: rest). split.
    + eapply perm_trans; [apply perm_skip, hp|]. simpl. apply perm_swap.
    + intros x [<-|hx].
      * exists 0%nat. simpl. split; [lia|]. split; [lia|auto].
      * destruct (hr x hx) as (c & h1 & h2 & h3). exists (S c). simpl. split; [lia|]. split; [lia|auto].
Qed.

Lemma nth_perm2 A (l : list A) a b d : (a < length l)%nat -> (b < length l)%nat -> a <> b ->
  exists rest, Permutation l (nth a l d :: nth b l d :: rest) /\
    forall x, In x rest -> exists c, (c < length l)%nat /\ c <> a /\ c <> b /\ nth c l d = x.
Proof.
  revert a b. induction l as [|y l IH]; intros a b ha hb hab; simpl in ha, hb; [lia|].
  destruct a as [|a], b as [|b].
  - lia.
  - destruct (@nth_perm _ l b d) as (rest & hp & hr); [lia|]. exists rest. split; [simpl; auto|].
    intros x hx. destruct (hr x hx) as (c & h1 & h2 & h3). exists (S c). simpl. repeat (split; [lia|]). auto.
  - destruct (@nth_perm _ l a d) as (rest & hp & hr); [lia|]. exists rest. split.
    + simpl. eapply perm_trans; [apply perm_skip, hp|]. apply perm_swap.
    + intros x hx. destruct (hr x hx) as (c & h1 & h2 & h3). exists (S c). simpl. repeat (split; [lia|]). auto.
  - destruct (IH a b) as (rest & hp & hr); [lia|lia|lia|]. exists (y :: rest). split.
    + simpl. eapply perm_trans; [apply perm_skip, hp|]. eapply perm_trans; [apply perm_swap|].
      apply perm_skip, perm_swap.
    + intros x [<-|hx].
      * exists 0%nat. simpl. repeat (split; [lia|]). auto.
      * destruct (hr x hx) as (c & h1 & h2 & h3 & h4). exists (S c). simpl. repeat (split; [lia|]). auto.
Qed.

Lemma two_least_pos (f : nat -> Q) (med : list nat) a b :
  (a < length med)%nat -> (b < length med)%nat -> a <> b ->
  f (nth a med 0%nat) <= f (nth b med 0%nat) ->
  (forall c, (c < length med)%nat -> c <> a -> c <> b -> f (nth b med 0%nat) <= f (nth c med 0%nat)) ->
  two_least (map f med) (f (nth a med 0%nat)) (f (nth b med 0%nat)).
Proof.
  intros ha hb hab hle h.
  destruct (@nth_perm2 _ med a b 0%nat ha hb hab) as (rest & hp & hr).
  exists (map f rest). split; [apply (Permutation_map f) in hp; exact hp|]. split; [auto|].
  intros x hx. apply in_map_iff in hx as (m & <- & hm). apply hr in hm as (c & h1 & h2 & h3 & <-). auto.
Qed.

Lemma near_ratio_pos v o med a b :
  (a < length med)%nat -> (b < length med)%nat -> a <> b ->
  v o (nth a med 0%nat) <= v o (nth b med 0%nat) ->
  (forall c, (c < length med)%nat -> c <> a -> c <> b -> v o (nth b med 0%nat) <= v o (nth c med 0%nat)) ->
  near_ratio v o med == v o (nth a med 0%nat) / v o (nth b med 0%nat).
Proof.
  intros ha hb hab hle h. unfold near_ratio.
  destruct (two_least_sort (@two_least_pos (v o) med a b ha hb hab hle h)) as [-> ->]. reflexivity.
Qed.

Lemma ratio_range a b : 0 <= a -> a <= b -> 0 <= a / b <= 1.
Proof.
  intros h1 h2. destruct (Qlt_le_dec 0 b) as [hb|hb].
  - split.
    + apply Qle_shift_div_l; lra.
    + apply Qle_shift_div_r; lra.
  - assert (e : b == 0) by lra. rewrite e. unfold Qdiv. change (/ 0) with 0. lra.
Qed.

(** the ratio is in [0, 1] *)
Lemma near_ratio_range v o med : (2 <= length med)%nat -> (forall m, In m med -> 0 <= v o m) ->
  0 <= near_ratio v o med <= 1.
Proof.
  intros hk h. unfold near_ratio. pose proof (sortQ_perm (map (v o) med)) as hp.
  pose proof (sortQ_sorted (map (v o) med)) as hs.
  destruct (sortQ (map (v o) med)) as [|p [|q r]]; cbn [nth].
  - apply Permutation_length in hp. rewrite map_length in hp. simpl in hp. lia.
  - apply Permutation_length in hp. rewrite map_length in hp. simpl in hp. lia.
  - assert (hpos : 0 <= p).
    { assert (hin : In p (map (v o) med)) by (apply (Permutation_in _ (Permutation_sym hp)); simpl; auto).
      apply in_map_iff in hin as (m & <- & hm). auto. }
    destruct hs as [h1 _]. apply ratio_range; [auto|]. apply h1. simpl. auto.
Qed.

Lemma mean_range (f : nat -> Q) n lo hi : (1 <= n)%nat -> (forall i, (i < n)%nat -> lo <= f i <= hi) ->
  lo <= sumQ f (seq 0 n) / inject_Z (Z.of_nat n) <= hi.
Proof.
  intros hn h.
  assert (hz : 0 < inject_Z (Z.of_nat n)) by (change 0 with (inject_Z 0); rewrite <- Zlt_Qlt; lia).
  assert (hs : inject_Z (Z.of_nat n) * lo <= sumQ f (seq 0 n) <= inject_Z (Z.of_nat n) * hi).
  { clear hn hz. induction n as [|n IH].
    - change (inject_Z (Z.of_nat 0)) with 0. cbn [seq sumQ fold_right]. lra.
    - rewrite sumQ_seq_S. destruct IH as [i1 i2]; [intros; apply h; lia|]. specialize (h n ltac:(lia)).
      replace (Z.of_nat (S n)) with (Z.of_nat n + 1)%Z by lia. rewrite inject_Z_plus.
      change (inject_Z 1) with 1. split; nra. }
  split; [apply Qle_shift_div_l|apply Qle_shift_div_r]; auto; nra.
Qed.

Lemma med_sil_range v n med : (1 <= n)%nat -> (2 <= length med)%nat ->
  (forall o m, (o < n)%nat -> In m med -> 0 <= v o m) -> 0 <= med_sil v n med <= 1.
Proof.
  intros hn hk h. unfold med_sil.
  pose proof (@mean_range (fun o => near_ratio v o med) n 0 1 hn) as hm.
  destruct hm as [h1 h2]; [|lra]. intros i hi. apply near_ratio_range; auto.
Qed.
