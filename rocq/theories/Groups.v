(** Groups.v -- data which consist of well separated groups, and medoids which no swap improves.
    Nothing here refers to the model. *)
From Coq Require Import List Arith Lia ZArith QArith Qminmax Lqa Permutation.
From Verif Require Import Spec SpecFacts Approx.
Import ListNotations.
Open Scope nat_scope.

(** [g] divides the [n] objects into [k] groups, none of them empty; objects of the same group are at
    most [d] apart, objects of different groups at least [s] *)
Definition groups (n k : nat) (v : diss) (g : nat -> nat) (d s : Q) : Prop :=
  (forall i, i < n -> g i < k) /\ (forall c, c < k -> exists i, i < n /\ g i = c) /\
  (forall i j, i < n -> j < n -> g i = g j -> (v i j <= d)%Q) /\
  (forall i j, i < n -> j < n -> g i <> g j -> (s <= v i j)%Q).

(** every object sees the members of a group at nearly the same distance; on metric data this follows
    from the diameter of the groups, see [metric_alike] *)
Definition alike (n : nat) (v : diss) (g : nat -> nat) (d : Q) : Prop :=
  forall o i j, o < n -> i < n -> j < n -> g i = g j -> (v o j <= v o i + d)%Q.

(** every group has a medoid *)
Definition covers (n : nat) (g : nat -> nat) (med : list nat) : Prop :=
  forall i, i < n -> exists m, In m med /\ g m = g i.

(** the clusters are the groups, and the medoid of a cluster is one of its objects *)
Definition recovers (n : nat) (g : nat -> nat) (med assi : list nat) : Prop :=
  (forall i j, i < n -> j < n -> (nth i assi 0 = nth j assi 0 <-> g i = g j)) /\
  (forall i, i < n -> g (nth (nth i assi 0) med 0) = g i).

(** no [k] or fewer medoids have a total deviation of less than [x] *)
Definition best_of_all (v : diss) (n k : nat) (x : Q) : Prop :=
  forall opt, 1 <= length opt <= k -> (forall m, In m opt -> m < n) -> (x <= tdev v n opt)%Q.

Lemma metric_alike n k v g d s : metric n v -> groups n k v g d s -> alike n v g d.
Proof.
  intros (_ & _ & ht) (_ & _ & hd & _) o i j ho hi hj e.
  pose proof (ht o i j ho hi hj). pose proof (hd i j hi hj e). lra.
Qed.

Lemma in_swap_new med b j : In j (swap med b j).
Proof. unfold swap. apply in_or_app. right. left. reflexivity. Qed.
Lemma in_swap_old med b j c : b < length med -> c < length med -> c <> b -> In (nth c med 0) (swap med b j).
Proof.
  intros hb hc hn. rewrite <- (@nth_swap_other med b j c) by auto. apply nth_In. rewrite length_swap; auto.
Qed.
Lemma in_swap_lt n med b j m : (forall m, In m med -> m < n) -> j < n -> In m (swap med b j) -> m < n.
Proof.
  intros hin hj h. unfold swap in h. apply in_app_or in h as [h|[<-|h]]; auto; apply hin.
  - rewrite <- (firstn_skipn b med). apply in_or_app. auto.
  - rewrite <- (firstn_skipn (S b) med). apply in_or_app. auto.
Qed.
Lemma swap_nonempty med b j : swap med b j <> [].
Proof. unfold swap. destruct (firstn b med); cbn; congruence. Qed.

(** a positive amount at [j] only *)
Lemma sumQ_but_one (f h : nat -> Q) x j n : j < n -> (forall o, o < n -> (f o <= h o)%Q) -> (f j <= h j - x)%Q ->
  (sumQ f (seq 0 n) <= sumQ h (seq 0 n) - x)%Q.
Proof.
  intros hj h1 h2. rewrite <- (sumQ_single x hj). rewrite <- sumQ_minus. apply sumQ_le. intros o ho. apply in_seq in ho.
  destruct (Nat.eqb_spec o j) as [->|]; [exact h2|]. specialize (h1 o ltac:(lia)). lra.
Qed.

Section Groups.
  Variables (n k : nat) (v : diss) (g : nat -> nat) (d s : Q).
  Hypothesis HV : dissimilarity n v.
  Hypothesis HG : groups n k v g d s.
  Hypothesis Hk : 1 <= k.

  Lemma gr_n : 1 <= n.
  Proof. destruct HG as (_ & h & _). destruct (h 0 Hk) as (i & hi & _). lia. Qed.
  Lemma gr_d : (0 <= d)%Q.
  Proof.
    pose proof gr_n as hn. destruct HG as (_ & _ & h & _). pose proof (h 0 0 hn hn eq_refl).
    destruct HV as [_ h2]. pose proof (h2 0 0 hn hn). lra.
  Qed.
  (** [n * d], the largest possible total deviation with a medoid in every group *)
  Local Notation nd := (inject_Z (Z.of_nat n) * d)%Q.
  Lemma d_le_nd : (d <= nd)%Q.
  Proof.
    pose proof gr_d. pose proof gr_n.
    assert (h : (1 <= inject_Z (Z.of_nat n))%Q) by (change 1%Q with (inject_Z 1); rewrite <- Zle_Qle; lia). nra.
  Qed.

  (** either every group has a medoid, or one has none *)
  Lemma covers_dec med : covers n g med \/ exists i, i < n /\ forall m, In m med -> g m <> g i.
  Proof.
    assert (h : forall b, b <= n -> (forall i, i < b -> exists m, In m med /\ g m = g i) \/
                                exists i, i < n /\ forall m, In m med -> g m <> g i).
    { induction b as [|b IH]; intros hb; [left; intros; lia|]. destruct IH as [h|h]; [lia| |right; exact h].
      destruct (find (fun m => g m =? g b) med) as [m|] eqn:e.
      - apply find_some in e as [e1 e2]. apply Nat.eqb_eq in e2. left. intros i hi.
        destruct (Nat.eq_dec i b) as [->|]; [eauto|apply h; lia].
      - right. exists b. split; [lia|]. intros m hm c. pose proof (find_none _ _ e m hm) as h1. cbv beta in h1.
        apply Nat.eqb_neq in h1. contradiction. }
    apply h. lia.
  Qed.

  Lemma missing_far med i : med <> [] -> (forall m, In m med -> m < n) -> i < n -> (forall m, In m med -> g m <> g i) ->
    (s <= mindist v i med)%Q.
  Proof.
    intros hne hin hi hm. destruct (mindist_in v i hne) as (m & h & e). rewrite e.
    apply HG; auto. intros c. apply (hm m h). auto.
  Qed.

  (** without a medoid in one of the groups, the total deviation is at least [s] *)
  Lemma missing_tdev med i : med <> [] -> (forall m, In m med -> m < n) -> i < n -> (forall m, In m med -> g m <> g i) ->
    (s <= tdev v n med)%Q.
  Proof.
    intros hne hin hi hm. pose proof (missing_far med i hne hin hi hm) as h.
    assert (h0 : forall o, o < n -> (0 <= mindist v o med)%Q) by (intros; apply (mindist_nonneg _ HV); auto).
    pose proof (sumQ_but_one (fun _ => 0)%Q (fun o => mindist v o med) s i n hi h0 ltac:(cbv beta; lra)) as h1.
    rewrite sumQ_zero in h1. unfold tdev. lra.
  Qed.
  Lemma small_covers med : med <> [] -> (forall m, In m med -> m < n) -> (tdev v n med < s)%Q -> covers n g med.
  Proof.
    intros hne hin h. destruct (covers_dec med) as [hc|(i & hi & hm)]; [exact hc|].
    pose proof (missing_tdev med i hne hin hi hm). lra.
  Qed.
  Lemma cover_near med o : (forall m, In m med -> m < n) -> covers n g med -> o < n -> (mindist v o med <= d)%Q.
  Proof.
    intros hin hc ho. destruct (hc o ho) as (m & hm & e). pose proof (mindist_le v o _ _ hm).
    pose proof (proj1 (proj2 (proj2 HG)) o m ho (hin m hm) (eq_sym e)). lra.
  Qed.
  Lemma cover_tdev med : (forall m, In m med -> m < n) -> covers n g med -> (tdev v n med <= nd)%Q.
  Proof.
    intros hin hc. unfold tdev. apply Qle_trans with (sumQ (fun _ => d) (seq 0 n)).
    - apply sumQ_le. intros o ho. apply in_seq in ho. apply cover_near; auto. lia.
    - rewrite sumQ_const, seq_length. lra.
  Qed.

  (** ** Pigeonholes *)
  Lemma covers_all med : covers n g med -> incl (seq 0 k) (map g med).
  Proof.
    intros hc c h. apply in_seq in h. destruct (proj1 (proj2 HG) c ltac:(lia)) as (i & hi & <-).
    destruct (hc i hi) as (m & hm & <-). apply in_map. exact hm.
  Qed.
  Lemma covers_len med : covers n g med -> k <= length med.
  Proof.
    intros hc. pose proof (NoDup_incl_length (seq_NoDup k 0) (covers_all med hc)) as h.
    rewrite seq_length, map_length in h. exact h.
  Qed.
  Lemma covers_nodup med : covers n g med -> length med <= k -> NoDup (map g med).
  Proof.
    intros hc hl. apply (NoDup_incl_NoDup (seq_NoDup k 0)); [rewrite seq_length, map_length; exact hl|].
    apply covers_all. exact hc.
  Qed.
  (** in a covering list of [k] medoids, the group determines the medoid *)
  Lemma covers_unique med a b : covers n g med -> length med <= k -> a < length med -> b < length med ->
    g (nth a med 0) = g (nth b med 0) -> a = b.
  Proof.
    intros hc hl ha hb e. pose proof (covers_nodup med hc hl) as h. rewrite NoDup_nth with (d := g 0) in h.
    apply h; rewrite ?map_length; auto. rewrite !map_nth. exact e.
  Qed.
  (** a group without medoid means that another one has two *)
  Lemma two_in_one med i : length med = k -> (forall m, In m med -> m < n) -> i < n -> (forall m, In m med -> g m <> g i) ->
    exists a b, a < k /\ b < k /\ a <> b /\ g (nth a med 0) = g (nth b med 0).
  Proof.
    intros hl hin hi hm.
    assert (hnd : ~ NoDup (map g med)).
    { intros h. assert (h' : NoDup (g i :: map g med)).
      { constructor; [|exact h]. intros c. apply in_map_iff in c as (m & e & h1). apply (hm m h1). exact e. }
      assert (hinc : incl (g i :: map g med) (seq 0 k)).
      { intros c [<-|hc]; [apply in_seq; pose proof (proj1 HG i hi); lia|].
        apply in_map_iff in hc as (m & <- & h1). apply in_seq. pose proof (proj1 HG m (hin m h1)). lia. }
      pose proof (NoDup_incl_length h' hinc) as h2. cbn [length] in h2. rewrite map_length, seq_length in h2. lia. }
    assert (G : forall l : list nat, ~ NoDup l -> exists a b, a < length l /\ b < length l /\ a <> b /\ nth a l (g 0) = nth b l (g 0)).
    { induction l as [|x l IH]; intros h; [exfalso; apply h; constructor|].
      destruct (in_dec Nat.eq_dec x l) as [h1|h1].
      - apply In_nth with (d := g 0) in h1 as (b & hb & e). exists 0, (S b). cbn [length nth]. repeat split; auto; lia.
      - destruct IH as (a & b & ha & hb & hn & e); [intros c; apply h; constructor; auto|].
        exists (S a), (S b). cbn [length nth]. repeat split; auto; lia. }
    destruct (G _ hnd) as (a & b & ha & hb & hn & e). rewrite map_length in ha, hb. rewrite !map_nth in e.
    exists a, b. rewrite <- hl. auto.
  Qed.

  (** ** Medoids which no swap improves (by more than [e]) *)
  Lemma swap_in med i : alike n v g d -> length med = k -> (forall m, In m med -> m < n) -> i < n ->
    (forall m, In m med -> g m <> g i) ->
    exists b, b < length med /\ (tdev v n (swap med b i) <= tdev v n med + nd - s)%Q.
  Proof.
    intros ha hl hin hi hm. destruct (two_in_one med i hl hin hi hm) as (a & b & h1 & h2 & hn & e).
    assert (hne : med <> []) by (intros ->; cbn in hl; lia). rewrite hl. exists b. split; [exact h2|].
    assert (hsw : forall o, o < n -> (mindist v o (swap med b i) <= mindist v o med + d)%Q).
    { intros o ho. destruct (mindist_in v o hne) as (m & hmm & em). rewrite em.
      apply nth_In_iff in hmm as (c & hc & <-). pose proof gr_d. destruct (Nat.eq_dec c b) as [->|hcb].
      - pose proof (mindist_le v o _ _ (in_swap_old med b i a ltac:(lia) ltac:(lia) hn)) as h3.
        assert (h4 : (v o (nth a med 0%nat) <= v o (nth b med 0%nat) + d)%Q).
        { apply ha; auto; apply hin; apply nth_In; lia. } lra.
      - pose proof (mindist_le v o _ _ (in_swap_old med b i c ltac:(lia) ltac:(lia) hcb)). lra. }
    assert (hself : (mindist v i (swap med b i) <= 0)%Q).
    { pose proof (mindist_le v i _ _ (in_swap_new med b i)). pose proof (proj1 HV i hi). lra. }
    pose proof (missing_far med i hne hin hi hm) as hfar. pose proof gr_d.
    pose proof (sumQ_but_one (fun o => mindist v o (swap med b i)) (fun o => mindist v o med + d)%Q s i n hi hsw ltac:(cbv beta; lra)) as h3.
    unfold tdev. rewrite sumQ_plus, sumQ_const, seq_length in h3. lra.
  Qed.

  Lemma optimal_covers med e : alike n v g d -> length med = k -> (forall m, In m med -> m < n) -> (nd + e < s)%Q ->
    (forall b j, b < length med -> j < n -> (tdev v n med - e <= tdev v n (swap med b j))%Q) -> covers n g med.
  Proof.
    intros ha hl hin hs ho. destruct (covers_dec med) as [h|(i & hi & hm)]; [exact h|exfalso].
    destruct (swap_in med i ha hl hin hi hm) as (b & hb & h). specialize (ho b i hb hi). lra.
  Qed.

  Lemma single_covers med : k = 1 -> length med = k -> (forall m, In m med -> m < n) -> covers n g med.
  Proof.
    intros hk hl hin i hi. destruct med as [|m med]; [cbn in hl; lia|]. exists m. split; [left; reflexivity|].
    pose proof (proj1 HG i hi). pose proof (proj1 HG m (hin m (or_introl eq_refl))). lia.
  Qed.

  (** ** Swapping in one object after the other *)
  Definition has (med : list nat) (i : nat) : Prop := exists m, In m med /\ g m = g i.
  Lemma has_dec med i : has med i \/ forall m, In m med -> g m <> g i.
  Proof.
    destruct (find (fun m => g m =? g i) med) as [m|] eqn:e.
    - apply find_some in e as [e1 e2]. apply Nat.eqb_eq in e2. left. exists m. auto.
    - right. intros m hm c. pose proof (find_none _ _ e m hm) as h1. cbv beta in h1. apply Nat.eqb_neq in h1. contradiction.
  Qed.

  (** if no swap with [j] is worth more than [e], the group of [j] has a medoid *)
  Lemma no_gain_has med j e : alike n v g d -> length med = k -> (forall m, In m med -> m < n) -> j < n -> (nd + e < s)%Q ->
    (forall b, b < length med -> (tdev v n med - e <= tdev v n (swap med b j))%Q) -> has med j.
  Proof.
    intros ha hl hin hj hs ho. destruct (has_dec med j) as [h|hm]; [exact h|exfalso].
    destruct (swap_in med j ha hl hin hj hm) as (b & hb & h). specialize (ho b hb). lra.
  Qed.

  (** a swap which is, up to [e], no loss and the best one with [j], leaves no group without medoid *)
  Lemma swap_keeps med b j e i : alike n v g d -> length med = k -> (forall m, In m med -> m < n) -> b < length med -> j < n ->
    (nd + e < s)%Q -> (tdev v n (swap med b j) <= tdev v n med + e)%Q ->
    (forall c, c < length med -> (tdev v n (swap med b j) <= tdev v n (swap med c j) + e)%Q) ->
    i < n -> has med i -> has (swap med b j) i.
  Proof.
    intros ha hl hin hb hj hs h1 h2 hi (m0 & hm0 & em0). pose proof gr_d as hd0.
    destruct (has_dec (swap med b j) i) as [h|hmiss]; [exact h|exfalso].
    assert (hne : med <> []) by (intros ->; destruct hm0).
    assert (hin' : forall m, In m (swap med b j) -> m < n) by (intros m; apply in_swap_lt; auto).
    pose proof (missing_far _ i (swap_nonempty med b j) hin' hi hmiss) as hfar.
    destruct (has_dec med j) as [(m' & hm' & em')|hjm].
    - (* the group of [j] had a medoid already *)
      assert (hsw : forall o, o < n -> (mindist v o med <= mindist v o (swap med b j) + d)%Q).
      { intros o ho. destruct (mindist_in v o (swap_nonempty med b j)) as (x & hx & ex). rewrite ex.
        apply nth_In_iff in hx as (c & hc & ec). rewrite length_swap in hc by exact hb. destruct (Nat.eq_dec c b) as [->|hcb].
        - rewrite nth_swap_same in ec by exact hb. subst x. pose proof (mindist_le v o _ _ hm').
          pose proof (ha o j m' ho hj (hin m' hm') (eq_sym em')). lra.
        - rewrite nth_swap_other in ec by auto. subst x. pose proof (mindist_le v o _ _ (nth_In _ 0 hc)). lra. }
      assert (hat : (mindist v i med <= d)%Q).
      { pose proof (mindist_le v i _ _ hm0). pose proof (proj1 (proj2 (proj2 HG)) i m0 hi (hin m0 hm0) (eq_sym em0)). lra. }
      pose proof (sumQ_but_one (fun o => mindist v o med) (fun o => mindist v o (swap med b j) + d)%Q s i n hi hsw
        ltac:(cbv beta; lra)) as h3.
      rewrite sumQ_plus, sumQ_const, seq_length in h3. unfold tdev in h1. lra.
    - (* two medoids in one group: removing one of them would have been better *)
      destruct (two_in_one med j hl hin hj hjm) as (a & b' & g1 & g2 & hn & e0).
      assert (hsw : forall o, o < n -> (mindist v o (swap med b' j) <= mindist v o (swap med b j) + d)%Q).
      { intros o ho. destruct (mindist_in v o (swap_nonempty med b j)) as (x & hx & ex). rewrite ex.
        apply nth_In_iff in hx as (c & hc & ec). rewrite length_swap in hc by exact hb. destruct (Nat.eq_dec c b) as [->|hcb].
        - rewrite nth_swap_same in ec by exact hb. subst x. pose proof (mindist_le v o _ _ (in_swap_new med b' j)). lra.
        - rewrite nth_swap_other in ec by auto. subst x. destruct (Nat.eq_dec c b') as [->|hcb'].
          + pose proof (mindist_le v o _ _ (in_swap_old med b' j a ltac:(lia) ltac:(lia) hn)).
            assert (h4 : (v o (nth a med 0%nat) <= v o (nth b' med 0%nat) + d)%Q).
            { apply ha; auto; apply hin; apply nth_In; lia. } lra.
          + pose proof (mindist_le v o _ _ (in_swap_old med b' j c ltac:(lia) ltac:(lia) hcb')). lra. }
      assert (hat : (mindist v i (swap med b' j) <= d)%Q).
      { apply nth_In_iff in hm0 as (c & hc & ec). subst m0.
        assert (G : forall x, In x (swap med b' j) -> g x = g i -> (mindist v i (swap med b' j) <= d)%Q).
        { intros x hx ex. pose proof (mindist_le v i _ _ hx).
          pose proof (proj1 (proj2 (proj2 HG)) i x hi (in_swap_lt n med b' j x hin hj hx) (eq_sym ex)). lra. }
        destruct (Nat.eq_dec c b') as [->|hcb'].
        - apply (G (nth a med 0)); [apply in_swap_old; auto; lia|congruence].
        - apply (G (nth c med 0)); [apply in_swap_old; auto; lia|exact em0]. }
      pose proof (sumQ_but_one (fun o => mindist v o (swap med b' j)) (fun o => mindist v o (swap med b j) + d)%Q s i n hi hsw
        ltac:(cbv beta; lra)) as h3.
      rewrite sumQ_plus, sumQ_const, seq_length in h3. specialize (h2 b' ltac:(lia)). unfold tdev in h2. lra.
  Qed.

  (** ** Clusters *)
  Hypothesis Hs : (nd < s)%Q.
  Lemma d_lt_s : (d < s)%Q.
  Proof. pose proof d_le_nd. lra. Qed.

  Lemma nearest_own med o a : (forall m, In m med -> m < n) -> covers n g med -> o < n -> nearest v o med a ->
    g (nth a med 0) = g o.
  Proof.
    intros hin hc ho hn. destruct (Nat.eq_dec (g (nth a med 0)) (g o)) as [h|h]; [exact h|exfalso].
    pose proof (cover_near med o hin hc ho) as h1. rewrite (nearest_mindist hn) in h1.
    pose proof (proj2 (proj2 (proj2 HG)) o (nth a med 0) ho (hin _ (nth_In _ _ (proj1 hn))) (fun e => h (eq_sym e))).
    pose proof d_lt_s. lra.
  Qed.

  Lemma covers_recovers med assi : (forall m, In m med -> m < n) -> length med <= k -> covers n g med ->
    (forall o, o < n -> nearest v o med (nth o assi 0)) -> recovers n g med assi.
  Proof.
    intros hin hl hc hn.
    assert (h : forall i, i < n -> g (nth (nth i assi 0) med 0) = g i) by (intros i hi; apply nearest_own; auto).
    split; [|exact h]. intros i j hi hj. split.
    - intros e. rewrite <- (h i hi), <- (h j hj), e. reflexivity.
    - intros e. apply (covers_unique med); auto; try apply hn; auto. rewrite (h i hi), (h j hj). exact e.
  Qed.

  (** ** Optimality *)
  Definition pick (opt : list nat) (c : nat) : nat :=
    match find (fun m => g m =? c) opt with Some m => m | None => 0 end.
  Lemma pick_ok opt i : covers n g opt -> i < n -> In (pick opt (g i)) opt /\ g (pick opt (g i)) = g i.
  Proof.
    intros hc hi. unfold pick. destruct (find (fun m => g m =? g i) opt) as [m|] eqn:e.
    - apply find_some in e as [e1 e2]. apply Nat.eqb_eq in e2. auto.
    - exfalso. destruct (hc i hi) as (m & hm & em). pose proof (find_none _ _ e m hm) as h. cbv beta in h.
      apply Nat.eqb_neq in h. contradiction.
  Qed.

  (** the distance to the nearest of covering medoids is that to the medoid of the own group *)
  Lemma mindist_own med o m : (forall m, In m med -> m < n) -> length med <= k -> covers n g med -> o < n ->
    In m med -> g m = g o -> (mindist v o med == v o m)%Q.
  Proof.
    intros hin hl hc ho hm e. assert (hne : med <> []) by (intros ->; destruct hm).
    destruct (mindist_in v o hne) as (m' & hm' & e'). rewrite e'.
    apply nth_In_iff in hm as (a & ha & <-). apply nth_In_iff in hm' as (b & hb & <-).
    assert (hn : nearest v o med b).
    { split; [exact hb|]. intros c hcl. rewrite <- e'. apply mindist_le. apply nth_In. exact hcl. }
    pose proof (nearest_own med o b hin hc ho hn) as h.
    rewrite (covers_unique med a b hc hl ha hb) by congruence. reflexivity.
  Qed.

  Lemma exchange med opt e : length med = k -> (forall m, In m med -> m < n) -> covers n g med ->
    length opt <= k -> (forall m, In m opt -> m < n) -> covers n g opt ->
    (forall b j, b < length med -> j < n -> g j = g (nth b med 0) -> (tdev v n med - e <= tdev v n (swap med b j))%Q) ->
    (tdev v n med <= tdev v n opt + inject_Z (Z.of_nat k) * e)%Q.
  Proof.
    intros hl hin hc hl' hin' hc' ho.
    set (x := fun b => pick opt (g (nth b med 0))).
    assert (hx : forall b, b < k -> In (x b) opt /\ g (x b) = g (nth b med 0)).
    { intros b hb. apply pick_ok; auto. apply hin. apply nth_In. lia. }
    assert (h1 : (sumQ (fun _ : nat => tdev v n med - e) (seq 0 k) <= sumQ (fun b => tdev v n (swap med b (x b))) (seq 0 k))%Q).
    { apply sumQ_le. intros b hb. apply in_seq in hb. apply ho; [lia| |apply hx; lia]. apply hin'. apply hx. lia. }
    rewrite sumQ_const, seq_length in h1. unfold tdev in h1 at 2. rewrite sumQ_swap in h1.
    assert (h2 : (sumQ (fun o => sumQ (fun b => mindist v o (swap med b (x b))) (seq 0 k)) (seq 0 n) <=
                  sumQ (fun o => inject_Z (Z.of_nat k) * mindist v o med + (mindist v o opt - mindist v o med)) (seq 0 n))%Q).
    { apply sumQ_le. intros o hon. apply in_seq in hon. assert (hi : o < n) by lia. clear hon.
      destruct (hc o hi) as (m & hm & em). pose proof hm as hm'. apply nth_In_iff in hm' as (a & ha & ea).
      pose proof (mindist_own med o m hin ltac:(lia) hc hi hm em) as e1.
      destruct (hx a ltac:(lia)) as [hxa gxa].
      assert (e2 : (mindist v o opt == v o (x a))%Q) by (apply mindist_own; auto; congruence).
      apply Qle_trans with (sumQ (fun b => mindist v o med + (if b =? a then mindist v o opt - mindist v o med else 0))%Q (seq 0 k)).
      - apply sumQ_le. intros b hb. apply in_seq in hb. destruct (Nat.eqb_spec b a) as [->|hne].
        + pose proof (mindist_le v o _ _ (in_swap_new med a (x a))). lra.
        + pose proof (mindist_le v o _ _ (in_swap_old med b (x b) a ltac:(lia) ha ltac:(auto))) as h3. rewrite ea in h3. lra.
      - rewrite sumQ_plus, sumQ_const, seq_length, sumQ_single by lia. lra. }
    rewrite sumQ_plus, sumQ_scale, sumQ_minus in h2. fold (tdev v n med) (tdev v n opt) in h2.
    set (K := inject_Z (Z.of_nat k)) in *. clearbody K. lra.
  Qed.

  (** optimal up to [k * e] *)
  Lemma optimal_best med e : length med = k -> (forall m, In m med -> m < n) -> covers n g med -> (0 <= e)%Q ->
    (forall b j, b < length med -> j < n -> g j = g (nth b med 0) -> (tdev v n med - e <= tdev v n (swap med b j))%Q) ->
    best_of_all v n k (tdev v n med - inject_Z (Z.of_nat k) * e)%Q.
  Proof.
    intros hl hin hc he ho opt hlo hino. assert (hne : opt <> []) by (intros ->; cbn in hlo; lia).
    assert (hke : (0 <= inject_Z (Z.of_nat k) * e)%Q).
    { apply Qmult_le_0_compat; [|exact he]. change 0%Q with (inject_Z 0). rewrite <- Zle_Qle. lia. }
    destruct (covers_dec opt) as [hco|(i & hi & hm)].
    - pose proof (exchange med opt e hl hin hc (proj2 hlo) hino hco ho). lra.
    - pose proof (missing_tdev opt i hne hino hi hm). pose proof (cover_tdev med hin hc). lra.
  Qed.

  (** replacing the medoid of a group by another object of the group concerns this group only *)
  Lemma swap_own med b j o : length med = k -> (forall m, In m med -> m < n) -> covers n g med -> b < length med -> j < n ->
    g j = g (nth b med 0) -> o < n -> ((if g o =? g j then v o j else mindist v o med) <= mindist v o (swap med b j))%Q.
  Proof.
    intros hl hin hc hb hj e ho.
    destruct (mindist_in v o (swap_nonempty med b j)) as (m & hm & em). rewrite em.
    apply nth_In_iff in hm as (c & hcl & ec). rewrite length_swap in hcl by exact hb.
    destruct (Nat.eqb_spec (g o) (g j)) as [eo|eo].
    - destruct (Nat.eq_dec c b) as [->|hcb]; [rewrite nth_swap_same in ec by exact hb; subst m; lra|].
      rewrite nth_swap_other in ec by auto. subst m.
      assert (hg : g (nth c med 0) <> g o).
      { intros h. apply hcb. apply (covers_unique med); auto; [lia|]. congruence. }
      pose proof (proj1 (proj2 (proj2 HG)) o j ho hj eo).
      pose proof (proj2 (proj2 (proj2 HG)) o (nth c med 0) ho (hin _ (nth_In _ _ hcl)) (fun h => hg (eq_sym h))).
      pose proof d_lt_s. lra.
    - destruct (Nat.eq_dec c b) as [->|hcb].
      + rewrite nth_swap_same in ec by exact hb. subst m. pose proof (cover_near med o hin hc ho).
        pose proof (proj2 (proj2 (proj2 HG)) o j ho hj eo). pose proof d_lt_s. lra.
      + rewrite nth_swap_other in ec by auto. subst m. apply mindist_le. apply nth_In. exact hcl.
  Qed.

  (** medoids which are the best ones of their clusters *)
  Lemma cluster_optimal med assi : symmetric n v -> length med = k -> (forall m, In m med -> m < n) -> covers n g med ->
    (forall o, o < n -> nearest v o med (nth o assi 0)) ->
    (forall c j, c < k -> j < n -> nth j assi 0 = c -> (cluster_cost v n assi c (nth c med 0%nat) <= cluster_cost v n assi c j)%Q) ->
    best_of_all v n k (tdev v n med).
  Proof.
    intros hsy hl hin hc hnear hcl.
    assert (h : best_of_all v n k (tdev v n med - inject_Z (Z.of_nat k) * 0)%Q).
    { apply optimal_best; auto; [lra|]. intros b j hb hj e.
      destruct (covers_recovers med assi hin ltac:(lia) hc hnear) as [r1 r2].
      assert (hmb : nth b med 0 < n) by (apply hin; apply nth_In; exact hb).
      assert (haj : nth j assi 0 = b).
      { apply (covers_unique med); auto; [lia|apply hnear; exact hj|]. rewrite r2 by exact hj. exact e. }
      specialize (hcl b j ltac:(lia) hj haj).
      assert (h1 : (cluster_cost v n assi b (nth b med 0%nat) ==
                    sumQ (fun o => if g o =? g j then mindist v o med else 0) (seq 0 n))%Q).
      { apply sumQ_ext. intros o ho. apply in_seq in ho. assert (ho' : o < n) by lia.
        destruct (Nat.eqb_spec (nth o assi 0) b) as [eo|eo].
        - assert (ego : g o = g j) by (apply r1; auto; congruence). rewrite ego, Nat.eqb_refl.
          rewrite (nearest_mindist (hnear o ho')), eo. apply hsy; auto.
        - destruct (Nat.eqb_spec (g o) (g j)) as [ego|]; [|reflexivity]. exfalso. apply eo. rewrite <- haj. apply r1; auto. }
      assert (h2 : (cluster_cost v n assi b j == sumQ (fun o => if g o =? g j then v o j else 0) (seq 0 n))%Q).
      { apply sumQ_ext. intros o ho. apply in_seq in ho. assert (ho' : o < n) by lia.
        destruct (Nat.eqb_spec (nth o assi 0) b) as [eo|eo].
        - assert (ego : g o = g j) by (apply r1; auto; congruence). rewrite ego, Nat.eqb_refl. apply hsy; auto.
        - destruct (Nat.eqb_spec (g o) (g j)) as [ego|]; [|reflexivity]. exfalso. apply eo. rewrite <- haj. apply r1; auto. }
      assert (h3 : (tdev v n med == sumQ (fun o => if g o =? g j then mindist v o med else 0) (seq 0 n) +
                                   sumQ (fun o => if g o =? g j then 0 else mindist v o med) (seq 0 n))%Q).
      { rewrite <- sumQ_plus. apply sumQ_ext. intros o _. destruct (g o =? g j); ring. }
      assert (h4 : (sumQ (fun o => if g o =? g j then v o j else 0) (seq 0 n) +
                    sumQ (fun o => if g o =? g j then 0 else mindist v o med) (seq 0 n) <= tdev v n (swap med b j))%Q).
      { rewrite <- sumQ_plus. apply sumQ_le. intros o ho. apply in_seq in ho.
        pose proof (swap_own med b j o hl hin hc hb hj e ltac:(lia)) as h5. destruct (g o =? g j); lra. }
      lra. }
    intros opt h1 h2. specialize (h opt h1 h2). lra.
  Qed.

  (** ** Greedy construction *)
  Lemma far_new med x : alike n v g d -> med <> [] -> (forall m, In m med -> m < n) -> x < n ->
    (exists m, In m med /\ g m = g x) -> (tdev v n med - nd <= tdev v n (med ++ [x]))%Q.
  Proof.
    intros ha hne hin hx (m & hm & em).
    assert (h : (sumQ (fun o => mindist v o med - d) (seq 0 n) <= tdev v n (med ++ [x]))%Q).
    { apply sumQ_le. intros o ho. apply in_seq in ho. rewrite mindist_snoc by exact hne.
      destruct (Qlt_le_dec (v o x) (mindist v o med)); [|pose proof gr_d; lra].
      pose proof (mindist_le v o _ _ hm). pose proof (ha o x m ltac:(lia) hx (hin m hm) (eq_sym em)). lra. }
    rewrite sumQ_minus, sumQ_const, seq_length in h. unfold tdev at 1. lra.
  Qed.

  Lemma greedy_distinct meds e : alike n v g d -> (forall m, In m meds -> m < n) -> (nd + e < s)%Q -> length meds <= k ->
    (forall i y, i < length meds -> y < n -> (tdev v n (firstn (S i) meds) <= tdev v n (firstn i meds ++ [y]) + e)%Q) ->
    NoDup (map g meds).
  Proof.
    intros ha hin hs hl hgr.
    assert (H : forall i, i <= length meds -> NoDup (map g (firstn i meds))).
    { induction i as [|i IH]; intros hi; [constructor|]. specialize (IH ltac:(lia)).
      assert (e1 : firstn (S i) meds = firstn i meds ++ [nth i meds 0]).
      { clear -hi. revert i hi. induction meds as [|x l IHl]; intros i hi; [cbn in hi; lia|]. destruct i as [|i]; [reflexivity|].
        cbn [firstn nth app]. f_equal. apply IHl. cbn in hi. lia. }
      set (x := nth i meds 0) in *. set (p := firstn i meds) in *.
      assert (hx : x < n) by (apply hin; apply nth_In; lia).
      assert (hp : forall m, In m p -> m < n).
      { intros m hm. apply hin. rewrite <- (firstn_skipn i meds). apply in_or_app. auto. }
      assert (hpl : length p = i) by (apply firstn_length_le; lia).
      rewrite e1, map_app. cbn [map]. apply (Permutation_NoDup (Permutation_cons_append _ _)). constructor; [|exact IH].
      intros c. apply in_map_iff in c as (m & em & hm).
      assert (hne : p <> []) by (intros c; rewrite c in hm; destruct hm).
      destruct (covers_dec p) as [hc|(y & hy & hmiss)]; [pose proof (covers_len p hc); lia|].
      pose proof (far_new p x ha hne hp hx (ex_intro _ m (conj hm em))) as h1. rewrite <- e1 in h1.
      specialize (hgr i y ltac:(lia) hy). fold p in hgr.
      pose proof (tdev_snoc_le HV hy hne) as h2. pose proof (missing_far p y hne hp hy hmiss). lra. }
    specialize (H (length meds) (le_n _)). rewrite firstn_all in H. exact H.
  Qed.

  Lemma distinct_covers med : (forall m, In m med -> m < n) -> length med = k -> NoDup (map g med) -> covers n g med.
  Proof.
    intros hin hl hnd i hi. assert (hinc : incl (map g med) (seq 0 k)).
    { intros c hc. apply in_map_iff in hc as (m & <- & hm). apply in_seq. pose proof (proj1 HG m (hin m hm)). lia. }
    assert (h : In (g i) (map g med)).
    { apply (NoDup_length_incl (l' := seq 0 k) hnd); [rewrite seq_length, map_length; lia|exact hinc|].
      apply in_seq. pose proof (proj1 HG i hi). lia. }
    apply in_map_iff in h as (m & e & hm). eauto.
  Qed.

  Lemma greedy_covers meds e : alike n v g d -> (forall m, In m meds -> m < n) -> (nd + e < s)%Q -> (0 <= e)%Q ->
    1 <= length meds <= k -> length meds = k \/ (tdev v n meds == 0)%Q ->
    (forall i y, i < length meds -> y < n -> (tdev v n (firstn (S i) meds) <= tdev v n (firstn i meds ++ [y]) + e)%Q) ->
    length meds = k /\ covers n g meds.
  Proof.
    intros ha hin hs he hl hd hgr. destruct hd as [hk|hz].
    - split; [exact hk|]. apply distinct_covers; auto. apply (greedy_distinct meds e); auto. lia.
    - assert (hc : covers n g meds).
      { apply small_covers; auto; [intros ->; cbn in hl; lia|]. rewrite hz.
        pose proof d_lt_s. pose proof gr_d. lra. }
      split; [|exact hc]. pose proof (covers_len meds hc). lia.
  Qed.
End Groups.
