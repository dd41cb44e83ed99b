(** Twins.v -- medoids which could stand in for each other, at medoids which no swap improves.  About the specification only. *)
From Coq Require Import QArith Lqa Lia Permutation.
From Verif Require Import Base Spec SpecFacts Approx Groups FloatSep.
Set Implicit Arguments.
Open Scope nat_scope.

(** number of objects in cluster [b] *)
Definition cluster_size (assi : list nat) (b : nat) : nat := count_occ Nat.eq_dec assi b.

Lemma size_sum assi b (e : Q) :
  (sumQ (fun o => if (nth o assi 0 =? b)%nat then e else 0) (seq 0 (length assi)) == inject_Z (Z.of_nat (cluster_size assi b)) * e)%Q.
Proof.
  unfold cluster_size. induction assi as [|a l IH] using rev_ind; [simpl; ring|].
  rewrite app_length. cbn [length]. rewrite Nat.add_1_r, sumQ_seq_S, count_occ_app.
  rewrite (@sumQ_ext nat _ (fun o => if (nth o l 0 =? b)%nat then e else 0%Q)).
  - rewrite IH. rewrite app_nth2 by lia. rewrite Nat.sub_diag. cbn [nth count_occ].
    destruct (Nat.eq_dec a b) as [->|hne]; [rewrite Nat.eqb_refl|apply Nat.eqb_neq in hne; rewrite hne];
      rewrite Nat2Z.inj_add, inject_Z_plus; simpl Z.of_nat.
    + change (inject_Z 1) with 1%Q. ring.
    + change (inject_Z 0) with 0%Q. ring.
  - intros x hx. apply in_seq in hx. rewrite app_nth1 by lia. reflexivity.
Qed.

Section Close.
  Variables (v : diss) (n : nat).
  Hypothesis hv : dissimilarity n v.
  Variables (med assi : list nat).
  Hypothesis hin : forall m, In m med -> m < n.
  Hypothesis hlen : length assi = n.
  Hypothesis hnear : forall o, o < n -> nearest v o med (nth o assi 0).
  (** medoid [c] takes the objects of medoid [b] at an expense of at most [e] each, and [x] becomes a medoid instead of [b] *)
  Lemma close_swap_near b c e x r : b < length med -> c < length med -> b <> c -> x < n -> (0 <= e)%Q ->
    (tdev v n med - r <= tdev v n (swap med b x))%Q ->
    (forall o, (o < n)%nat -> v o (nth c med 0%nat) <= v o (nth b med 0%nat) + e)%Q ->
    (mindist v x med <= inject_Z (Z.of_nat (cluster_size assi b)) * e + r)%Q.
  Proof.
    intros hb hc hbc hx he ho hcl.
    assert (hsum : (tdev v n (swap med b x) <= tdev v n med + inject_Z (Z.of_nat (cluster_size assi b)) * e - mindist v x med)%Q).
    { rewrite <- (size_sum assi b e), hlen, <- (@sumQ_single (mindist v x med) x n hx).
      unfold tdev. rewrite <- sumQ_plus, <- sumQ_minus. apply sumQ_le. intros o hin'. apply in_seq in hin'.
      assert (hon : o < n) by lia. clear hin'.
      destruct (hnear hon) as [ha hna]. pose proof (nearest_mindist (hnear hon)) as hmd.
      assert (hpos : (0 <= if (nth o assi 0 =? b)%nat then e else 0)%Q) by (destruct (_ =? b); lra).
      destruct (Nat.eqb_spec o x) as [->|hox].
      - pose proof (mindist_le v x _ _ (in_swap_new med b x)) as h. rewrite (proj1 hv x hx) in h. lra.
      - destruct (Nat.eqb_spec (nth o assi 0) b) as [hab|hab].
        + pose proof (mindist_le v o _ _ (@in_swap_old med b x c hb hc (not_eq_sym hbc))) as h.
          specialize (hcl o hon). rewrite hab in hmd. lra.
        + pose proof (mindist_le v o _ _ (@in_swap_old med b x _ hb ha hab)) as h. lra. }
    lra.
  Qed.

  Hypothesis hopt : swap_optimal v n med.

  Lemma close_swap b c e x : b < length med -> c < length med -> b <> c -> x < n -> (0 <= e)%Q ->
    (forall o, (o < n)%nat -> v o (nth c med 0%nat) <= v o (nth b med 0%nat) + e)%Q ->
    (mindist v x med <= inject_Z (Z.of_nat (cluster_size assi b)) * e)%Q.
  Proof.
    intros hb hc hbc hx he hcl. pose proof (hopt hb hx) as ho.
    assert (h : (mindist v x med <= inject_Z (Z.of_nat (cluster_size assi b)) * e + 0)%Q) by
      (apply close_swap_near with (c := c); auto; lra).
    lra.
  Qed.

  (** one medoid serves everybody at least as well as another one: the latter is wasted, which happens only if nothing is left to save *)
  Lemma wasted_zero b c : b < length med -> c < length med -> b <> c ->
    (forall o, (o < n)%nat -> v o (nth c med 0%nat) <= v o (nth b med 0%nat))%Q -> (tdev v n med == 0)%Q.
  Proof.
    intros hb hc hbc h. unfold tdev. rewrite <- (sumQ_zero (seq 0 n)). apply sumQ_ext. intros x hx. apply in_seq in hx.
    pose proof (@mindist_nonneg v n x med hv ltac:(lia) hin) as h0.
    assert (h1 : (mindist v x med <= inject_Z (Z.of_nat (cluster_size assi b)) * 0)%Q).
    { apply close_swap with (c := c); auto; [lia|apply Qle_refl|]. intros o ho. specialize (h o ho). lra. }
    lra.
  Qed.
End Close.

Lemma tdev_zero v n med : dissimilarity n v -> (forall m, In m med -> m < n) -> (tdev v n med == 0)%Q ->
  forall x, x < n -> (mindist v x med == 0)%Q.
Proof.
  intros hv hin ht x hx. assert (hle : (mindist v x med <= tdev v n med)%Q).
  { unfold tdev. rewrite <- (@sumQ_single (mindist v x med) x n hx). apply sumQ_le. intros o ho. apply in_seq in ho.
    destruct (Nat.eqb_spec o x) as [->|]; [apply Qle_refl|]. apply (mindist_nonneg (n := n)); auto. lia. }
  pose proof (@mindist_nonneg v n x med hv hx hin). lra.
Qed.

(** more objects than places: two of them are at the same place *)
Lemma same_place v n rest w : metric n v -> (forall m, In m rest -> m < n) -> (forall m, In m w -> m < n) -> NoDup w ->
  (forall x, x < n -> exists m, In m rest /\ (v x m == 0)%Q) -> length rest < length w ->
  exists x y, In x w /\ In y w /\ x <> y /\ (v x y == 0)%Q.
Proof.
  intros (hv & hsy & htri) hin hinw hndw hserve hlr.
  assert (hpick : exists f : list nat, length f = length w /\
    forall i, i < length w -> In (nth i f 0) rest /\ (v (nth i w 0%nat) (nth i f 0%nat) == 0)%Q).
  { clear hlr hndw. induction w as [|x w IH]; [exists []; simpl; split; [reflexivity|lia]|].
    destruct IH as (f & hf & h); [intros m hm; apply hinw; right; exact hm|].
    destruct (hserve x (hinw x (or_introl eq_refl))) as (m & hm & e). exists (m :: f). split; [simpl; lia|].
    intros [|i] hi; [split; [exact hm|exact e]|]. apply h. simpl in hi. lia. }
  destruct hpick as (f & hf & hpick).
  assert (hdup : ~ NoDup f).
  { intros hnf. assert (hi : incl f rest).
    { intros y hy. apply (In_nth _ _ 0) in hy as (i & hi & <-). apply hpick. lia. }
    pose proof (NoDup_incl_length hnf hi). lia. }
  assert (hij : exists i j, i < length f /\ j < length f /\ i <> j /\ nth i f 0 = nth j f 0).
  { clear - hdup. induction f as [|a f IH]; [exfalso; apply hdup; constructor|].
    destruct (in_dec Nat.eq_dec a f) as [hi|hni].
    - apply (In_nth _ _ 0) in hi as (j & hj & e). exists 0, (S j). simpl. repeat split; try lia; auto.
    - destruct IH as (i & j & h1 & h2 & h3 & h4); [intros h; apply hdup; constructor; auto|].
      exists (S i), (S j). simpl. repeat split; try lia; exact h4. }
  destruct hij as (i & j & hi & hj & hne & e). rewrite hf in hi, hj.
  destruct (hpick i hi) as [p1 p2]. destruct (hpick j hj) as [_ p3]. rewrite <- e in p3.
  assert (hwi : nth i w 0 < n) by (apply hinw, nth_In; exact hi). assert (hwj : nth j w 0 < n) by (apply hinw, nth_In; exact hj).
  assert (hm : nth i f 0 < n) by (apply hin; exact p1).
  exists (nth i w 0), (nth j w 0). split; [apply nth_In; exact hi|]. split; [apply nth_In; exact hj|].
  split; [intros he; apply hne; apply (proj1 (NoDup_nth w 0) hndw i j hi hj he)|].
  pose proof (htri _ _ _ hwi hm hwj) as ht1. rewrite (hsy _ _ hm hwj) in ht1. pose proof (proj2 hv _ _ hwi hwj). lra.
Qed.

(** everything at no distance of fewer medoids *)
Lemma few_places v n med w : metric n v -> med <> [] -> (forall m, In m med -> m < n) -> (tdev v n med == 0)%Q ->
  (forall m, In m w -> m < n) -> NoDup w -> length med < length w -> exists x y, In x w /\ In y w /\ x <> y /\ (v x y == 0)%Q.
Proof.
  intros hme hne hin ht hw hnd hl. apply (@same_place v n med w hme); auto. intros x hx.
  destruct (mindist_in v x hne) as (m & hm & e). exists m. split; [exact hm|]. rewrite <- e. apply (tdev_zero med (proj1 hme) hin ht hx).
Qed.

(** with two medoids at no distance and everything at no distance of a medoid, there are fewer than [length med] different places *)
Lemma places v n med b c w : metric n v -> medoids n (length med) med -> b < length med -> c < length med -> b <> c ->
  (v (nth b med 0%nat) (nth c med 0%nat) == 0)%Q -> (tdev v n med == 0)%Q -> medoids n (length med) w ->
  exists x y, In x w /\ In y w /\ x <> y /\ (v x y == 0)%Q.
Proof.
  intros hme (_ & hnd & hin) hb hc hbc h0 ht (hlw & hndw & hinw). pose proof hme as (hv & _ & htri).
  set (rest := filter (fun m => negb (m =? nth b med 0)) med).
  assert (hrest : forall m, In m rest <-> In m med /\ m <> nth b med 0).
  { intros m. unfold rest. rewrite filter_In, negb_true_iff, Nat.eqb_neq. reflexivity. }
  assert (hlr : length rest < length med).
  { assert (hi : incl (nth b med 0 :: rest) med).
    { intros y [<-|hy]; [apply nth_In; exact hb|apply hrest in hy; apply hy]. }
    assert (hn' : NoDup (nth b med 0 :: rest)) by (constructor; [rewrite hrest; intuition|apply NoDup_filter, hnd]).
    pose proof (NoDup_incl_length hn' hi) as hl. simpl in hl. lia. }
  apply (@same_place v n rest w hme); auto; [intros m hm; apply hin, hrest; exact hm| |lia].
  intros x hx. destruct (mindist_in v x (med := med)) as (m & hm & e); [intros ->; simpl in hb; lia|].
  rewrite (tdev_zero med hv hin ht hx) in e. destruct (Nat.eq_dec m (nth b med 0)) as [->|hne].
  - exists (nth c med 0). split.
    + apply hrest. split; [apply nth_In; exact hc|]. intros he. apply hbc. symmetry. apply (proj1 (NoDup_nth med 0) hnd c b hc hb he).
    + assert (hcn : nth c med 0 < n) by (apply hin, nth_In; exact hc).
      pose proof (htri x (nth b med 0) (nth c med 0) hx (hin _ hm) hcn). pose proof (proj2 hv x _ hx hcn). lra.
  - exists m. split; [apply hrest; auto|lra].
Qed.
