(** SpecFacts.v -- facts about the notions of Spec.v *)
From Coq Require Import List Arith Lia QArith Qminmax Lqa Permutation.
From Verif Require Import Spec.
Import ListNotations.
Set Implicit Arguments.
Open Scope Q_scope.

Lemma sumQ_app A (f : A -> Q) l1 l2 : sumQ f (l1 ++ l2) == sumQ f l1 + sumQ f l2.
Proof. induction l1; simpl; [lra|]. rewrite IHl1. lra. Qed.

Lemma sumQ_ext A (f g : A -> Q) l : (forall x, In x l -> f x == g x) -> sumQ f l == sumQ g l.
Proof.
  induction l; simpl; intros h; [lra|]. rewrite (h a) by auto. rewrite IHl by auto. lra.
Qed.

Lemma sumQ_le A (f g : A -> Q) l : (forall x, In x l -> f x <= g x) -> sumQ f l <= sumQ g l.
Proof.
  induction l; simpl; intros h; [lra|]. specialize (IHl (fun x hx => h x (or_intror hx))).
  specialize (h a (or_introl eq_refl)). lra.
Qed.

Lemma sumQ_plus A (f g : A -> Q) l : sumQ (fun x => f x + g x) l == sumQ f l + sumQ g l.
Proof. induction l; simpl; [lra|]. rewrite IHl. lra. Qed.

Lemma sumQ_minus A (f g : A -> Q) l : sumQ (fun x => f x - g x) l == sumQ f l - sumQ g l.
Proof. induction l; simpl; [lra|]. rewrite IHl. lra. Qed.

Lemma sumQ_scale A (f : A -> Q) c l : sumQ (fun x => c * f x) l == c * sumQ f l.
Proof. induction l; simpl; [lra|]. rewrite IHl. lra. Qed.

Lemma sumQ_zero A (l : list A) : sumQ (fun _ => 0) l == 0.
Proof. induction l; simpl; [lra|]. rewrite IHl. lra. Qed.

Lemma sumQ_nonneg A (f : A -> Q) l : (forall x, In x l -> 0 <= f x) -> 0 <= sumQ f l.
Proof. intros h. rewrite <- (sumQ_zero l). apply sumQ_le. auto. Qed.

Lemma sumQ_map A B (f : B -> Q) (g : A -> B) l : sumQ f (map g l) = sumQ (fun x => f (g x)) l.
Proof. induction l; simpl; congruence. Qed.

Lemma sumQ_seq_S (f : nat -> Q) n : sumQ f (seq 0 (S n)) == sumQ f (seq 0 n) + f n.
Proof. rewrite seq_S, sumQ_app. simpl. lra. Qed.

Lemma sumQ_perm A (f : A -> Q) l1 l2 : Permutation l1 l2 -> sumQ f l1 == sumQ f l2.
Proof. induction 1; simpl; lra. Qed.

(** sum over a list as a sum over its positions *)
Lemma sumQ_index A (f : A -> Q) (g : nat -> Q) l :
  (forall i x, nth_error l i = Some x -> f x == g i) ->
  sumQ f l == sumQ g (seq 0 (length l)).
Proof.
  revert g. induction l; simpl; intros g h; [lra|].
  rewrite (h 0%nat a) by auto.
  rewrite IHl with (g := fun i => g (S i)) by (intros; apply h; auto).
  rewrite <- seq_shift, sumQ_map. lra.
Qed.

(** ** minQ *)
Lemma minQ_le l x : In x l -> minQ l <= x.
Proof.
  induction l as [|a l IH]; simpl; [tauto|].
  destruct l as [|b l].
  - intros [->|[]]. lra.
  - intros [->|h].
    + apply Q.le_min_l.
    + eapply Qle_trans; [apply Q.le_min_r | apply IH; auto].
Qed.

Lemma minQ_in l : l <> [] -> exists x, In x l /\ minQ l == x.
Proof.
  induction l as [|a l IH]; simpl; [congruence|]. intros _.
  destruct l as [|b l].
  - exists a. split; [auto|lra].
  - destruct IH as (x & hx & e); [congruence|].
    destruct (Q.min_spec a (minQ (b :: l))) as [[_ h]|[_ h]].
    + exists a. split; auto.
    + exists x. split; auto. rewrite h. auto.
Qed.

Lemma minQ_glb l c : l <> [] -> (forall x, In x l -> c <= x) -> c <= minQ l.
Proof. intros hn h. destruct (minQ_in hn) as (x & hx & e). rewrite e. auto. Qed.

Lemma minQ_unique l c : (exists x, In x l /\ c == x) -> (forall x, In x l -> c <= x) -> minQ l == c.
Proof.
  intros (x & hx & e) h. apply Qle_antisym.
  - rewrite e. apply minQ_le. auto.
  - apply minQ_glb; auto. intros ->. destruct hx.
Qed.

Lemma minQ_equiv l1 l2 : l1 <> [] ->
  (forall x, In x l1 -> exists y, In y l2 /\ x == y) ->
  (forall y, In y l2 -> exists x, In x l1 /\ x == y) -> minQ l1 == minQ l2.
Proof.
  intros hn h1 h2. destruct (minQ_in hn) as (x & hx & e). destruct (h1 x hx) as (y & hy & e1).
  symmetry. apply minQ_unique.
  - exists y. split; [auto|]. rewrite e. exact e1.
  - intros z hz. destruct (h2 z hz) as (x' & hx' & <-). apply minQ_le. auto.
Qed.

(** ** mindist, tdev *)
Lemma nth_In_iff (med : list nat) m : In m med <-> exists c, (c < length med)%nat /\ nth c med 0%nat = m.
Proof.
  split.
  - intros h. apply In_nth with (d := 0%nat) in h. auto.
  - intros (c & h & <-). apply nth_In. auto.
Qed.

Lemma mindist_unique v o med a c :
  (a < length med)%nat -> c == v o (nth a med 0%nat) ->
  (forall c', (c' < length med)%nat -> c <= v o (nth c' med 0%nat)) ->
  mindist v o med == c.
Proof.
  intros ha e h. apply minQ_unique.
  - exists (v o (nth a med 0%nat)). split; auto. apply in_map. apply nth_In. auto.
  - intros x hx. apply in_map_iff in hx as (m & <- & hm).
    apply nth_In_iff in hm as (c' & hc & <-). auto.
Qed.

Lemma mindist_le v o med m : In m med -> mindist v o med <= v o m.
Proof. intros h. apply minQ_le. apply in_map. auto. Qed.

Lemma mindist_in v o med : med <> [] -> exists m, In m med /\ mindist v o med == v o m.
Proof.
  intros h. destruct (minQ_in (l := map (v o) med)) as (x & hx & e).
  - destruct med; simpl; congruence.
  - apply in_map_iff in hx as (m & <- & hm). eauto.
Qed.

Lemma nearest_mindist v o med a :
  nearest v o med a -> mindist v o med == v o (nth a med 0%nat).
Proof. intros [h1 h2]. apply mindist_unique with (a := a); auto. lra. Qed.

Lemma mindist_incl v o med med' :
  med <> [] -> incl med med' -> mindist v o med' <= mindist v o med.
Proof.
  intros hn hi. destruct (mindist_in v o hn) as (m & hm & e). rewrite e. apply mindist_le. auto.
Qed.

(** more medoids, smaller deviation *)
Lemma tdev_incl v n med med' :
  med <> [] -> incl med med' -> tdev v n med' <= tdev v n med.
Proof. intros hn hi. apply sumQ_le. intros o _. apply mindist_incl; auto. Qed.

Lemma length_swap med b j : (b < length med)%nat -> length (swap med b j) = length med.
Proof.
  intros h. unfold swap. rewrite app_length. cbn [length].
  rewrite firstn_length, skipn_length. lia.
Qed.

(** swapping in an object which already is a medoid never helps *)
Lemma tdev_swap_medoid v n med b j :
  (b < length med)%nat -> In j med -> tdev v n med <= tdev v n (swap med b j).
Proof.
  intros hb hj. apply tdev_incl.
  - unfold swap. destruct (firstn b med); simpl; congruence.
  - intros m hm. unfold swap in hm. apply in_app_or in hm as [hm|[<-|hm]]; auto.
    + rewrite <- (firstn_skipn b med). apply in_or_app. auto.
    + rewrite <- (firstn_skipn (S b) med). apply in_or_app. auto.
Qed.

Lemma tdev_nonneg v n med :
  dissimilarity n v -> (forall m, In m med -> (m < n)%nat) -> 0 <= tdev v n med.
Proof.
  intros [_ hv] hm. apply sumQ_nonneg. intros o ho. apply in_seq in ho.
  destruct med as [|m med]; [unfold mindist; simpl; lra|].
  destruct (mindist_in v o (med := m :: med)) as (m' & hm' & e); [congruence|].
  rewrite e. apply hv; auto. lia.
Qed.

Lemma sumQ_single (x : Q) j n : (j < n)%nat ->
  sumQ (fun i => if Nat.eqb i j then x else 0) (seq 0 n) == x.
Proof.
  intros h.
  assert (G : forall n, sumQ (fun i => if Nat.eqb i j then x else 0) (seq 0 n) ==
                        if Nat.ltb j n then x else 0).
  { clear. induction n; [simpl; lra|]. rewrite sumQ_seq_S, IHn.
    destruct (Nat.ltb_spec j n); destruct (Nat.ltb_spec j (S n)); destruct (Nat.eqb_spec n j);
      try lia; lra. }
  rewrite G. apply Nat.ltb_lt in h. rewrite h. lra.
Qed.

(** ** adding a medoid *)
Lemma mindist_snoc v o med x : med <> [] ->
  mindist v o (med ++ [x]) == if Qlt_le_dec (v o x) (mindist v o med) then v o x else mindist v o med.
Proof.
  intros hn.
  assert (h1 : mindist v o (med ++ [x]) <= v o x) by (apply mindist_le; apply in_or_app; simpl; auto).
  assert (h2 : mindist v o (med ++ [x]) <= mindist v o med).
  { apply mindist_incl; auto. intros y hy. apply in_or_app. auto. }
  assert (h3 : exists m, In m (med ++ [x]) /\ mindist v o (med ++ [x]) == v o m).
  { apply mindist_in. destruct med; simpl; congruence. }
  destruct h3 as (m & hm & e). apply in_app_or in hm as [hm|[<-|[]]].
  - pose proof (mindist_le v o _ _ hm). destruct (Qlt_le_dec (v o x) (mindist v o med)); lra.
  - destruct (Qlt_le_dec (v o x) (mindist v o med)); lra.
Qed.

Lemma mindist_nonneg v n o med : dissimilarity n v -> (o < n)%nat ->
  (forall m, In m med -> (m < n)%nat) -> 0 <= mindist v o med.
Proof.
  intros [_ hv] ho hm. destruct med as [|m0 med]; [unfold mindist; simpl; lra|].
  destruct (mindist_in v o (med := m0 :: med)) as (m & hin & e); [congruence|]. rewrite e. auto.
Qed.

Lemma mindist_self v n o med : dissimilarity n v -> (o < n)%nat ->
  (forall m, In m med -> (m < n)%nat) -> In o med -> mindist v o med == 0.
Proof.
  intros hd ho hm hin. pose proof (mindist_nonneg med hd ho hm).
  pose proof (mindist_le v o med o hin). destruct hd as [hd _]. specialize (hd o ho). lra.
Qed.

(** a new medoid [y] saves at least the distance of [y] *)
Lemma tdev_snoc_le v n med y : dissimilarity n v -> (y < n)%nat -> med <> [] ->
  tdev v n (med ++ [y]) + mindist v y med <= tdev v n med.
Proof.
  intros [hd _] hy hn. unfold tdev.
  rewrite <- (sumQ_single (mindist v y med) hy) at 1.
  rewrite <- sumQ_plus. apply sumQ_le. intros o ho. apply in_seq in ho.
  assert (h2 : mindist v o (med ++ [y]) <= mindist v o med).
  { apply mindist_incl; auto. intros z hz. apply in_or_app. auto. }
  destruct (Nat.eqb_spec o y) as [->|]; [|lra].
  assert (mindist v y (med ++ [y]) <= v y y) by (apply mindist_le; apply in_or_app; simpl; auto).
  rewrite (hd y hy) in H. lra.
Qed.

Lemma greedy_snoc v n meds x : greedy v n meds ->
  (forall y, (y < n)%nat -> tdev v n (meds ++ [x]) <= tdev v n (meds ++ [y])) ->
  greedy v n (meds ++ [x]).
Proof.
  intros hg hx i y hi hy. rewrite app_length in hi. simpl in hi.
  assert (hc : (i = length meds \/ i < length meds)%nat) by lia.
  destruct hc as [->|hi'].
  - rewrite firstn_all2 by (rewrite app_length; simpl; lia).
    rewrite firstn_app, Nat.sub_diag, firstn_all. simpl firstn. rewrite app_nil_r. auto.
  - rewrite !firstn_app. replace (S i - length meds)%nat with 0%nat by lia.
    replace (i - length meds)%nat with 0%nat by lia. simpl (firstn 0 _). rewrite !app_nil_r. auto.
Qed.
