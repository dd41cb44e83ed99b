(** SilSym.v -- the silhouettes do not depend on the names of clusters and objects, on the order of
    the medoids or on the unit of the dissimilarities; labels which are not in use *)
From Coq Require Import ZArith QArith Qminmax Lqa Lia Permutation.
From Verif Require Import Base Num M_Mat M_Util M_Silhouette Hoare Spec SpecFacts Laws SortFacts SilFacts RefFacts.
Set Implicit Arguments.
Open Scope nat_scope.

Lemma in_others (assi : list nat) i a x : In x (others assi i a) <-> x < length assi /\ x <> i /\ nth x assi 0 = a.
Proof.
  unfold others. rewrite filter_In, in_seq, andb_true_iff, negb_true_iff, Nat.eqb_neq, Nat.eqb_eq. simpl. intuition lia.
Qed.

Section Perm.
  Variable n : nat.
  Variable sg : nat -> nat.
  Hypothesis Hperm : Permutation (map sg (seq 0 n)) (seq 0 n).

  Lemma sg_lt i : i < n -> sg i < n.
  Proof.
    intros hi. assert (h : In (sg i) (seq 0 n)).
    { apply Permutation_in with (1 := Hperm). apply in_map. apply in_seq. lia. }
    apply in_seq in h. lia.
  Qed.
  Lemma sg_onto x : x < n -> exists i, i < n /\ sg i = x.
  Proof.
    intros hx. assert (h : In x (map sg (seq 0 n))).
    { apply Permutation_in with (1 := Permutation_sym Hperm). apply in_seq. lia. }
    apply in_map_iff in h as (i & e & hi). apply in_seq in hi. exists i. split; [lia|auto].
  Qed.
End Perm.

(** ** Exact values *)
Section Rename.
  Variables v1 v2 : diss.
  Variable n : nat.
  Variable c : Q.
  Variable sg tau : nat -> nat.
  Variables assi1 assi2 : list nat.
  Hypothesis Hc : (0 < c)%Q.
  Hypothesis Hsg : forall i j, i < n -> j < n -> (v2 (sg i) (sg j) == c * v1 i j)%Q.
  Hypothesis Hperm : Permutation (map sg (seq 0 n)) (seq 0 n).
  Hypothesis Hl1 : length assi1 = n.
  Hypothesis Hl2 : length assi2 = n.
  Hypothesis Htau : forall i, i < n -> nth (sg i) assi2 0 = tau (nth i assi1 0).
  Hypothesis Hinj : forall a b, In a assi1 -> In b assi1 -> tau a = tau b -> a = b.

  Notation scaled := (scaled c).

  Lemma label_in i : i < n -> In (nth i assi1 0) assi1.
  Proof. intros hi. apply nth_In. lia. Qed.

  Lemma others_rename i a : i < n -> In a assi1 ->
    Permutation (map sg (others assi1 i a)) (others assi2 (sg i) (tau a)).
  Proof.
    intros hi ha. apply NoDup_Permutation.
    - assert (hnd : NoDup (others assi1 i a)) by (apply NoDup_filter, seq_NoDup).
      assert (hlt : forall x, In x (others assi1 i a) -> x < n) by (intros x hx; apply in_others in hx; lia).
      revert hnd hlt. generalize (others assi1 i a). induction l as [|x l IH]; intros h1 h2; cbn [map]; constructor.
      + inversion_clear h1 as [|? ? hni _]. intros h. apply in_map_iff in h as (y & e & hy). apply hni.
        replace x with y; auto. apply (sg_inj sg Hperm); auto; apply h2; simpl; auto.
      + inversion_clear h1. apply IH; auto. intros y hy. apply h2. simpl. auto.
    - apply NoDup_filter, seq_NoDup.
    - intros x. split.
      + intros h. apply in_map_iff in h as (j & <- & hj). apply in_others in hj as (h1 & h2 & h3).
        rewrite Hl1 in h1. apply in_others. rewrite Hl2, Htau by auto. split; [apply (sg_lt sg Hperm); auto|]. split; [|congruence].
        intros e. apply h2. apply (sg_inj sg Hperm); auto.
      + intros h. apply in_others in h as (h1 & h2 & h3). rewrite Hl2 in h1. destruct (sg_onto sg Hperm h1) as (j & hj & <-).
        apply in_map. apply in_others. rewrite Hl1. split; [auto|]. split; [congruence|].
        rewrite Htau in h3 by auto. apply Hinj; auto. apply label_in; auto.
  Qed.

  Lemma mean_rename i a : i < n -> In a assi1 ->
    scaled (mean_diss v1 i (others assi1 i a)) (mean_diss v2 (sg i) (others assi2 (sg i) (tau a))).
  Proof.
    intros hi ha. unfold RefFacts.scaled, mean_diss. pose proof (others_rename _ hi ha) as hp.
    rewrite <- (Permutation_length hp), map_length, <- (sumQ_perm _ hp), sumQ_map.
    rewrite (sumQ_ext _ (fun j => c * v1 i j)%Q), sumQ_scale.
    - unfold Qdiv. ring.
    - intros j hj. apply in_others in hj. apply Hsg; lia.
  Qed.

  Lemma sil_a_rename i : i < n -> scaled (sil_a v1 assi1 i) (sil_a v2 assi2 (sg i)).
  Proof. intros hi. unfold sil_a. rewrite Htau by auto. apply mean_rename; auto. apply label_in; auto. Qed.

  Lemma sil_b_rename i : i < n -> scaled (sil_b v1 assi1 i) (sil_b v2 assi2 (sg i)).
  Proof.
    intros hi. unfold sil_b. rewrite Htau by auto. set (a := nth i assi1 0).
    assert (ha : In a assi1) by (apply label_in; auto).
    set (f2 := fun c0 => mean_diss v2 (sg i) (others assi2 (sg i) c0)).
    set (l1 := filter (fun c0 => negb (c0 =? a)) assi1).
    assert (h1 : scaled (minQ (map (fun c0 => mean_diss v1 i (others assi1 i c0)) l1)) (minQ (map (fun c0 => f2 (tau c0)) l1))).
    { apply scaled_min; auto. assert (hl : forall b, In b l1 -> In b assi1) by (intros b hb; apply filter_In in hb; tauto).
      revert hl. generalize l1. intros l. induction l as [|b l IH]; intros hl; cbn [map]; constructor.
      - apply mean_rename; auto. apply hl. simpl. auto.
      - apply IH. intros b' hb'. apply hl. simpl. auto. }
    assert (hin : forall y, In y (filter (fun c0 => negb (c0 =? tau a)) assi2) <-> exists b, In b l1 /\ tau b = y).
    { intros y. rewrite filter_In, negb_true_iff, Nat.eqb_neq. split.
      - intros [h2 h3]. apply (In_nth _ _ 0) in h2 as (x & hx & e). rewrite Hl2 in hx.
        destruct (sg_onto sg Hperm hx) as (j & hj & <-). rewrite Htau in e by auto. exists (nth j assi1 0). split; [|auto].
        apply filter_In. split; [apply label_in; auto|]. apply negb_true_iff, Nat.eqb_neq. congruence.
      - intros (b & hb & <-). apply filter_In in hb as [hb hn]. apply negb_true_iff, Nat.eqb_neq in hn. split.
        + apply (In_nth _ _ 0) in hb as (j & hj & <-). rewrite Hl1 in hj. rewrite <- Htau by auto. apply nth_In.
          rewrite Hl2. apply (sg_lt sg Hperm). auto.
        + intros e. apply hn. apply Hinj; auto. }
    assert (h2 : (minQ (map f2 (filter (fun c0 => negb (c0 =? tau a)) assi2)) == minQ (map (fun c0 => f2 (tau c0)) l1))%Q).
    { destruct (filter (fun c0 => negb (c0 =? tau a)) assi2) as [|y l2] eqn:e.
      - destruct l1 as [|b l1']; [reflexivity|]. exfalso. apply (proj2 (hin (tau b))). exists b. simpl. auto.
      - rewrite <- e in *. apply minQ_equiv.
        + rewrite e. discriminate.
        + intros q hq. apply in_map_iff in hq as (z & <- & hz). rewrite hin in hz. destruct hz as (b & hb & <-).
          exists (f2 (tau b)). split; [|reflexivity]. apply (in_map (fun c0 => f2 (tau c0))). auto.
        + intros q hq. apply in_map_iff in hq as (b & <- & hb). exists (f2 (tau b)). split; [|reflexivity].
          apply in_map. apply hin. exists b. auto. }
    unfold RefFacts.scaled in *. fold f2. rewrite h2. exact h1.
  Qed.

  Lemma scaled_max a a' b b' : scaled a a' -> scaled b b' -> scaled (Qmax a b) (Qmax a' b').
  Proof.
    unfold RefFacts.scaled. intros ha hb.
    destruct (Q.max_spec a b) as [[h e]|[h e]]; rewrite e.
    - rewrite Q.max_r; auto. rewrite ha, hb. apply Qmult_le_l; auto. lra.
    - rewrite Q.max_l; auto. rewrite ha, hb. apply Qmult_le_l; auto.
  Qed.

  Lemma sil_object_rename i : i < n -> (sil_object v2 assi2 (sg i) == sil_object v1 assi1 i)%Q.
  Proof.
    intros hi. unfold sil_object. rewrite Htau by auto.
    pose proof (others_rename _ hi (label_in hi)) as hp. apply Permutation_length in hp. rewrite map_length in hp.
    destruct (others assi1 i (nth i assi1 0)) eqn:e1; destruct (others assi2 (sg i) (tau (nth i assi1 0))) eqn:e2;
      simpl in hp; try discriminate; [reflexivity|].
    pose proof (sil_a_rename hi) as ha. pose proof (sil_b_rename hi) as hb.
    apply (scaled_ratio (c := c)); auto.
    - unfold RefFacts.scaled in *. rewrite ha, hb. ring.
    - apply scaled_max; auto.
  Qed.

  Lemma sil_mean_rename : (sil_mean v2 assi2 == sil_mean v1 assi1)%Q.
  Proof.
    unfold sil_mean. rewrite Hl1, Hl2.
    rewrite (@sum_relabel n sg Hperm (sil_object v2 assi2) (sil_object v1 assi1) 1%Q).
    - rewrite Qmult_1_l. reflexivity.
    - intros i hi. rewrite Qmult_1_l. apply sil_object_rename. auto.
  Qed.
End Rename.

(** ** A label which is not in use *)
Section Gap.
  Context {Nt Lt : Type} `{HDL : DivLaws Nt Lt}.
  Variable M : Mat Nt.
  Variable n : nat.
  Variable D : nat -> nat -> Nt.
  Hypothesis HD : nonneg_matrix M n D.
  Notation v := (vals D).

  Lemma code_b_gap assi i ai c : length assi <= n -> i < n -> c < width assi -> ~ In c assi -> c <> ai ->
    (code_b D assi i ai == 0)%Q.
  Proof.
    intros hl hi hc hn hne. apply Qle_antisym.
    - apply Qle_trans with (mean_diss v i (others assi i c)).
      + apply minQ_le. apply (in_map (fun c => mean_diss v i (others assi i c))). apply filter_In.
        split; [apply in_seq; lia|]. apply negb_true_iff, Nat.eqb_neq. auto.
      + replace (others assi i c) with (@nil nat); [unfold mean_diss, Qdiv; simpl; lra|].
        destruct (others assi i c) as [|x l] eqn:e; auto. exfalso. assert (h : In x (others assi i c)) by (rewrite e; simpl; auto).
        apply in_others in h as (h1 & _ & <-). apply hn. apply nth_In. auto.
    - apply (code_b_pos HD); auto.
  Qed.

  Lemma mean_zero i l : (forall j, In j l -> (v i j == 0)%Q) -> (mean_diss v i l == 0)%Q.
  Proof.
    intros h. unfold mean_diss. rewrite (sumQ_ext _ (fun _ => 0%Q)), sumQ_zero by auto. unfold Qdiv. ring.
  Qed.

  Lemma mean_positive i l j : i < n -> (forall j, In j l -> j < n) -> In j l -> (0 < v i j)%Q -> (0 < mean_diss v i l)%Q.
  Proof.
    intros hi hl hj hp. unfold mean_diss. destruct l as [|x l]; [destruct hj|].
    apply Qlt_shift_div_l.
    - change 0%Q with (inject_Z 0). rewrite <- Zlt_Qlt. simpl length. lia.
    - rewrite Qmult_0_l. apply Qlt_le_trans with (v i j); auto.
      apply in_split in hj as (l1 & l2 & e). rewrite e, sumQ_app. cbn [sumQ fold_right map].
      assert (h1 : (0 <= sumQ (v i) l1)%Q).
      { apply sumQ_nonneg. intros y hy. apply HD; auto. apply hl. rewrite e. apply in_or_app. auto. }
      assert (h2 : (0 <= sumQ (v i) l2)%Q).
      { apply sumQ_nonneg. intros y hy. apply HD; auto. apply hl. rewrite e. apply in_or_app. simpl. auto. }
      change (v i j <= sumQ (v i) l1 + (v i j + sumQ (v i) l2))%Q. lra.
  Qed.

  Lemma code_sil_gap assi i c : length assi <= n -> i < length assi -> c < width assi -> ~ In c assi ->
    ((forall j, In j (others assi i (nth i assi 0%nat)) -> (v i j == 0)%Q) -> (code_sil D assi i (nth i assi 0%nat) == 0)%Q) /\
    ((exists j, In j (others assi i (nth i assi 0%nat)) /\ (0 < v i j)%Q) -> (code_sil D assi i (nth i assi 0%nat) == -1)%Q).
  Proof.
    intros hl hi hc hn. set (ai := nth i assi 0).
    assert (hne : c <> ai) by (intros ->; apply hn, nth_In; auto).
    pose proof (@code_b_gap assi i ai c hl ltac:(lia) hc hn hne) as hb.
    unfold code_sil. split.
    - intros h. pose proof (@mean_zero i _ h) as hm. destruct (others assi i ai) as [|x l] eqn:e; [reflexivity|].
      rewrite hb, hm. unfold Qdiv. change (0 - 0)%Q with 0%Q. apply Qmult_0_l.
    - intros (j & hj & hp).
      assert (hm : (0 < mean_diss v i (others assi i ai))%Q).
      { eapply mean_positive; eauto; [lia|]. intros x hx. apply others_lt in hx. lia. }
      destruct (others assi i ai) as [|x l] eqn:e; [destruct hj|].
      rewrite hb, Q.max_l by lra. field. lra.
  Qed.
End Gap.

(** ** Bit for bit *)

(** the comparison is that of a linear order on the values [P] *)
Definition linear {A : Type} (lt : A -> A -> bool) (P : A -> Prop) : Prop :=
  (forall x, P x -> lt x x = false) /\
  (forall x y z, P x -> P y -> P z -> lt x y = true -> lt y z = true -> lt x z = true) /\
  (forall x y, P x -> P y -> lt x y = false -> lt y x = false -> x = y).

Section Linear.
  Context {A : Type}.
  Variable lt : A -> A -> bool.
  Variable P : A -> Prop.
  Hypothesis HL : linear lt P.

  Lemma lin_ge_lt x y z : P x -> P y -> P z -> lt y x = false -> lt y z = true -> lt x z = true.
  Proof.
    intros hx hy hz h1 h2. destruct (lt x y) eqn:e.
    - destruct HL as (_ & ht & _). apply (ht x y z); auto.
    - destruct HL as (_ & _ & ha). rewrite (ha x y); auto.
  Qed.

  Lemma min_fold (l : list A) t : P t -> (forall y, In y l -> P y) ->
    let r := fold_left (fun x y => if lt y x then y else x) l t in
    In r (t :: l) /\ forall y, In y (t :: l) -> lt y r = false.
  Proof.
    cbv zeta. revert t. induction l as [|a l IH]; intros t ht hl; cbn [fold_left].
    - split; [simpl; auto|]. intros y [<-|[]]. apply HL. auto.
    - assert (ha : P a) by (apply hl; simpl; auto). assert (hl' : forall y, In y l -> P y) by (intros y hy; apply hl; simpl; auto).
      destruct (lt a t) eqn:e.
      + destruct (IH a ha hl') as [h1 h2]. split; [simpl in h1 |- *; tauto|].
        set (r := fold_left _ l a) in *. assert (hr : P r) by (destruct h1 as [<-|h1]; auto).
        intros y [<-|hy]; [|apply h2; exact hy]. destruct (lt t r) eqn:e1; auto.
        exfalso. assert (lt a r = true) by (destruct HL as (_ & tr & _); apply (tr a t r); auto).
        rewrite h2 in H; [discriminate|simpl; auto].
      + destruct (IH t ht hl') as [h1 h2]. split; [simpl in h1 |- *; tauto|].
        set (r := fold_left _ l t) in *. assert (hr : P r) by (destruct h1 as [<-|h1]; auto).
        intros y hy. destruct hy as [<-|[<-|hy]]; [apply h2; simpl; auto| |apply h2; simpl; auto].
        destruct (lt a r) eqn:e1; auto. exfalso.
        assert (h : lt t r = true) by (apply lin_ge_lt with a; auto). rewrite h2 in h; [discriminate|simpl; auto].
  Qed.

  Lemma least_unique (l : list A) x y : (forall z, In z l -> P z) -> In x l -> In y l ->
    (forall z, In z l -> lt z x = false) -> (forall z, In z l -> lt z y = false) -> x = y.
  Proof. intros hl hx hy h1 h2. apply HL; auto. Qed.

  (** the smallest element does not depend on the order *)
  Lemma min_fold_perm (l l' : list A) t t' : Permutation (t :: l) (t' :: l') -> (forall y, In y (t :: l) -> P y) ->
    fold_left (fun x y => if lt y x then y else x) l t = fold_left (fun x y => if lt y x then y else x) l' t'.
  Proof.
    intros hp hl.
    assert (hl2 : forall y, In y (t' :: l') -> P y) by (intros y hy; apply hl; apply (Permutation_in _ (Permutation_sym hp)); auto).
    destruct (@min_fold l t) as [a1 a2]; [apply hl; simpl; auto|intros y hy; apply hl; simpl; auto|].
    destruct (@min_fold l' t') as [b1 b2]; [apply hl2; simpl; auto|intros y hy; apply hl2; simpl; auto|].
    apply least_unique with (l := t :: l); auto.
    - apply (Permutation_in _ (Permutation_sym hp)). auto.
    - intros z hz. apply b2. apply (Permutation_in _ hp). auto.
  Qed.

  (** the two smallest elements *)
  Definition least2 (l : list A) (best : A * A) : Prop :=
    exists rest, Permutation l (fst best :: snd best :: rest) /\ lt (snd best) (fst best) = false /\
      forall y, In y rest -> lt y (snd best) = false.

  Lemma lin_ge_trans x y z : P x -> P y -> P z -> lt y x = false -> lt z y = false -> lt z x = false.
  Proof.
    intros hx hy hz h1 h2. destruct (lt z x) eqn:e; auto.
    assert (h : lt y x = true) by (apply lin_ge_lt with z; auto). congruence.
  Qed.

  Lemma lt_ge x y : P x -> P y -> lt x y = true -> lt y x = false.
  Proof.
    intros hx hy e. destruct (lt y x) eqn:e1; auto. destruct HL as (hi & ht & _).
    rewrite <- (hi x hx). symmetry. apply (ht x y x); auto.
  Qed.

  Lemma least2_unique l l' b b' : (forall y, In y l -> P y) -> Permutation l l' -> least2 l b -> least2 l' b' -> b = b'.
  Proof.
    intros hl hp (r & p1 & q1 & q2) (r' & p1' & q1' & q2'). destruct b as [x y], b' as [x' y']. cbn [fst snd] in *.
    assert (hP : forall z, In z (x :: y :: r) -> P z) by (intros z hz; apply hl; apply (Permutation_in _ (Permutation_sym p1)); auto).
    assert (hpp : Permutation (x :: y :: r) (x' :: y' :: r')).
    { eapply perm_trans; [apply Permutation_sym; exact p1|]. eapply perm_trans; [exact hp|exact p1']. }
    assert (hP' : forall z, In z (x' :: y' :: r') -> P z) by (intros z hz; apply hP; apply (Permutation_in _ (Permutation_sym hpp)); auto).
    assert (px : P x) by (apply hP; simpl; auto). assert (py : P y) by (apply hP; simpl; auto).
    assert (px' : P x') by (apply hP'; simpl; auto). assert (py' : P y') by (apply hP'; simpl; auto).
    assert (lx : forall z, In z (x :: y :: r) -> lt z x = false).
    { intros z hz. destruct hz as [<-|[<-|hz]]; [apply HL; auto|auto|]. apply lin_ge_trans with y; auto. apply hP. simpl. auto. }
    assert (lx' : forall z, In z (x' :: y' :: r') -> lt z x' = false).
    { intros z hz. destruct hz as [<-|[<-|hz]]; [apply HL; auto|auto|]. apply lin_ge_trans with y'; auto. apply hP'. simpl. auto. }
    assert (ex : x = x').
    { apply least_unique with (l := x :: y :: r); auto; [simpl; auto|apply (Permutation_in _ (Permutation_sym hpp)); simpl; auto|].
      intros z hz. apply lx'. apply (Permutation_in _ hpp). auto. }
    subst x'. apply Permutation_cons_inv in hpp. f_equal.
    apply least_unique with (l := y :: r).
    - intros z hz. apply hP. simpl in *. tauto.
    - simpl. auto.
    - apply (Permutation_in _ (Permutation_sym hpp)). simpl. auto.
    - intros z [<-|hz]; [apply HL; auto|auto].
    - intros z hz. apply (Permutation_in _ hpp) in hz. destruct hz as [<-|hz]; [apply HL; auto|auto].
  Qed.

  Lemma least2_pair x y : P x -> P y -> least2 [x; y] (if lt x y then (x, y) else (y, x)).
  Proof.
    intros hx hy. destruct (lt x y) eqn:e.
    - exists []. split; [reflexivity|]. split; [apply lt_ge; auto|]. intros z [].
    - exists []. split; [apply perm_swap|]. split; [auto|]. intros z [].
  Qed.

  Lemma least2_snoc l b d : (forall y, In y l -> P y) -> P d -> least2 l b ->
    least2 (l ++ [d]) (if lt d (fst b) then (d, fst b) else if lt d (snd b) then (fst b, d) else b).
  Proof.
    intros hl hd (r & p1 & q1 & q2). destruct b as [x y]. cbn [fst snd] in *.
    assert (hP : forall z, In z (x :: y :: r) -> P z) by (intros z hz; apply hl; apply (Permutation_in _ (Permutation_sym p1)); auto).
    assert (px : P x) by (apply hP; simpl; auto). assert (py : P y) by (apply hP; simpl; auto).
    assert (hpp : Permutation (l ++ [d]) (d :: x :: y :: r)).
    { eapply perm_trans; [apply Permutation_app_comm|]. simpl. constructor. exact p1. }
    destruct (lt d x) eqn:e1; [|destruct (lt d y) eqn:e2].
    - exists (y :: r). split; [exact hpp|]. cbn [fst snd]. split; [apply lt_ge; auto|].
      intros z [<-|hz]; auto. apply lin_ge_trans with y; auto. apply hP. simpl. auto.
    - exists (y :: r). cbn [fst snd]. split; [eapply perm_trans; [exact hpp|apply perm_swap]|]. split; [auto|].
      intros z hz. assert (pz : P z) by (apply hP; simpl in *; tauto).
      assert (hyd : lt y d = false) by (apply lt_ge; auto).
      destruct hz as [<-|hz]; auto. apply lin_ge_trans with y; auto.
    - exists (d :: r). cbn [fst snd]. split.
      + eapply perm_trans; [exact hpp|]. eapply perm_trans; [apply perm_swap|]. constructor. apply perm_swap.
      + split; [auto|]. intros z [<-|hz]; auto.
  Qed.
End Linear.

Section Bits.
  Context {Nt Lt : Type} `{HNN : NumN Nt} `{HNL : NumL Lt} `{HFN : FromN Nt Lt}.
  Variable M : Mat Nt.
  Variable n : nat.
  Variable D : nat -> nat -> Nt.
  Hypothesis HM : is_matrix M n D.

  (** *** renaming the labels *)
  Section Labels.
    Variable K : nat.
    Variable tau : nat -> nat.
    Hypothesis Htau : Permutation (map tau (seq 0 K)) (seq 0 K).

    Lemma tau_lt a : a < K -> tau a < K.
    Proof. apply (sg_lt tau Htau). Qed.
    Lemma tau_inj a b : a < K -> b < K -> tau a = tau b -> a = b.
    Proof. apply (sg_inj tau Htau). Qed.

    Definition same_buf (buf buf' : list (nat * Lt)) : Prop :=
      forall c, c < K -> nth (tau c) buf' (0, lzero) = nth c buf (0, lzero).

    Lemma buf_fold_rename i l (buf buf' : list (nat * Lt)) : i < n ->
      (forall j a, In (j, a) l -> j < n /\ a < K) -> same_buf buf buf' ->
      exists b b',
        foldM (fun buf '(j, aj) =>
             let buf := grow buf aj in
             if negb (i =? j) then
               p <- idx buf aj ;;
               d <- mget M i j ;;
               upd buf aj (S (fst p), ladd (snd p) (lfrom d))
             else Ok buf) l buf = Ok b /\
        foldM (fun buf '(j, aj) =>
             let buf := grow buf aj in
             if negb (i =? j) then
               p <- idx buf aj ;;
               d <- mget M i j ;;
               upd buf aj (S (fst p), ladd (snd p) (lfrom d))
             else Ok buf) (map (fun ja => (fst ja, tau (snd ja))) l) buf' = Ok b' /\ same_buf b b'.
    Proof.
      intros hi. revert buf buf'. induction l as [|[j a] l IH]; intros buf buf' hl hb; cbn [map foldM fst snd].
      - eauto.
      - destruct (hl j a) as [hj ha]; [simpl; auto|].
        assert (hg : same_buf (grow buf a) (grow buf' (tau a))) by (intros c hc; rewrite !nth_grow; auto).
        assert (hl' : forall j a, In (j, a) l -> j < n /\ a < K) by (intros; apply hl; simpl; auto).
        cbv zeta. destruct (negb (i =? j)); cbn [bind]; [|apply IH; auto].
        rewrite !(@idx_nth _ _ _ (0, lzero)) by (rewrite length_grow; lia). cbn [bind].
        rewrite (proj2 (proj2 HM)) by lia. cbn [bind].
        rewrite !upd_ok by (rewrite length_grow; lia). cbn [bind]. apply IH; auto.
        intros c hc. rewrite !nth_set_nth by (rewrite length_grow; lia). rewrite (hg a ha).
        destruct (Nat.eqb_spec c a) as [->|hne].
        + rewrite Nat.eqb_refl. reflexivity.
        + destruct (Nat.eqb_spec (tau c) (tau a)) as [e|_]; [|apply hg; auto].
          exfalso. apply hne. apply tau_inj; auto.
    Qed.

    Lemma enum_map (assi : list nat) : enum (map tau assi) = map (fun ja => (fst ja, tau (snd ja))) (enum assi).
    Proof.
      unfold enum. rewrite map_length. generalize 0. induction assi as [|a assi IH]; intros s; cbn; [reflexivity|].
      f_equal. apply IH.
    Qed.

    Variable assi : list nat.
    Hypothesis Hlen : length assi <= n.
    Hypothesis Hdense : dense K assi.
    Hypothesis HK : 2 <= K.

    Lemma dense_map : dense K (map tau assi).
    Proof.
      intros c. rewrite in_map_iff. split.
      - intros (a & <- & ha). apply tau_lt. apply Hdense. auto.
      - intros hc. destruct (sg_onto tau Htau hc) as (a & ha & e). exists a. split; [auto|]. apply Hdense. auto.
    Qed.

    Lemma sil_buf_rename i : i < n ->
      exists b b', sil_buf (Lt := Lt) M assi i = Ok b /\ sil_buf (Lt := Lt) M (map tau assi) i = Ok b' /\ same_buf b b'.
    Proof.
      intros hi. unfold sil_buf. rewrite enum_map. apply buf_fold_rename; auto.
      - intros j a hin. apply In_enum in hin as h. apply nth_error_lt in h as hj. split; [lia|].
        apply Hdense. eapply nth_error_In; eauto.
      - intros c _. destruct (tau c), c; reflexivity.
    Qed.

    Variable P : Lt -> Prop.
    Hypothesis HP : linear lltb P.
    Hypothesis Hmeans : forall i buf p, i < length assi -> sil_buf M assi i = Ok buf -> In p buf -> P (buf_mean p).

    Lemma filter_rename a : a < K ->
      Permutation (filter (fun c => negb (c =? tau a)) (seq 0 K)) (map tau (filter (fun c => negb (c =? a)) (seq 0 K))).
    Proof.
      intros ha. apply NoDup_Permutation.
      - apply NoDup_filter, seq_NoDup.
      - assert (h1 : NoDup (filter (fun c => negb (c =? a)) (seq 0 K))) by apply NoDup_filter, seq_NoDup.
        assert (h2 : forall x, In x (filter (fun c => negb (c =? a)) (seq 0 K)) -> x < K).
        { intros x hx. apply filter_In in hx as [hx _]. apply in_seq in hx. lia. }
        revert h1 h2. generalize (filter (fun c => negb (c =? a)) (seq 0 K)).
        induction l as [|x l IH]; intros h1 h2; cbn [map]; constructor; inversion_clear h1 as [|? ? hni hnd].
        + intros h. apply in_map_iff in h as (y & e & hy). apply hni. replace x with y; auto.
          apply tau_inj; auto; apply h2; simpl; auto.
        + apply IH; auto. intros y hy. apply h2. simpl. auto.
      - intros x. rewrite filter_In, in_seq, negb_true_iff, Nat.eqb_neq, in_map_iff. split.
        + intros [h1 h2]. destruct (sg_onto tau Htau (x := x)) as (y & hy & e); [lia|]. exists y. split; [auto|].
          apply filter_In. split; [apply in_seq; lia|]. apply negb_true_iff, Nat.eqb_neq. congruence.
        + intros (y & <- & hy). apply filter_In in hy as [h1 h2]. apply in_seq in h1. apply negb_true_iff, Nat.eqb_neq in h2.
          pose proof (@tau_lt y ltac:(lia)). split; [lia|]. intros e. apply h2. apply tau_inj; auto. lia.
    Qed.

    Lemma sil_value_rename i a : nth_error assi i = Some a ->
      sil_value (Lt := Lt) M (map tau assi) (i, tau a) = sil_value (Lt := Lt) M assi (i, a).
    Proof.
      intros e. apply nth_error_lt in e as hi.
      assert (ha : a < K) by (apply Hdense; eapply nth_error_In; eauto).
      destruct (@sil_buf_rename i ltac:(lia)) as (b & b' & e1 & e2 & hs). unfold sil_value. cbn [fst snd].
      pose proof (Hmeans (i := i) (buf := b)) as hP. specialize (fun p => hP p hi e1).
      assert (l1 : length b = width assi) by (eapply sil_buf_len; exact e1).
      assert (l2 : length b' = width (map tau assi)) by (eapply sil_buf_len; exact e2).
      rewrite (@dense_width K assi) in l1 by (auto; lia). rewrite (@dense_width K (map tau assi)) in l2 by (auto using dense_map; lia).
      rewrite e1, e2. cbn [bind]. unfold sil_of_buf.
      pose proof (tau_lt ha) as ha'. rewrite !(@idx_nth _ _ _ (0, lzero)) by lia. cbn [bind]. rewrite (hs a ha).
      destruct (0 <? fst (nth a b (0, lzero))); [|reflexivity]. cbv zeta.
      set (t1 := map _ (filter _ (enum b))). set (t2 := map _ (filter _ (enum b'))).
      assert (hp : Permutation t1 t2).
      { unfold t1, t2, enum. rewrite (@filter_enum _ (fun c => negb (c =? a)) b 0 (0, lzero)).
        rewrite (@filter_enum _ (fun c => negb (c =? tau a)) b' 0 (0, lzero)). rewrite l1, l2, !map_map.
        apply Permutation_sym. eapply perm_trans; [apply Permutation_map, filter_rename; auto|].
        rewrite map_map. erewrite map_ext_in; [reflexivity|]. intros c hc. cbv beta. rewrite !Nat.sub_0_r.
        rewrite hs; auto. apply filter_In in hc as [hc _]. apply in_seq in hc. lia. }
      assert (ht : forall y, In y t1 -> P y).
      { intros y hy. unfold t1 in hy. apply in_map_iff in hy as ([c q] & <- & hq). apply filter_In in hq as [hq _].
        apply hP. unfold enum in hq. apply in_combine_r in hq. exact hq. }
      assert (eb : match t2 with [] => lzero | t :: ts => fold_left (fun x y => if lltb y x then y else x) ts t end =
                   match t1 with [] => lzero | t :: ts => fold_left (fun x y => if lltb y x then y else x) ts t end).
      { clearbody t1 t2. destruct t1 as [|x1 t1].
        - apply Permutation_nil in hp. subst t2. reflexivity.
        - destruct t2 as [|x2 t2]; [apply Permutation_sym, Permutation_nil in hp; discriminate|].
          symmetry. apply (min_fold_perm HP); auto. }
      rewrite eb. reflexivity.
    Qed.

    Lemma sil_values_rename :
      mapM (sil_value (Lt := Lt) M (map tau assi)) (enum (map tau assi)) = mapM (sil_value (Lt := Lt) M assi) (enum assi).
    Proof.
      rewrite enum_map.
      assert (h : forall l, (forall i a, In (i, a) l -> nth_error assi i = Some a) ->
        mapM (sil_value (Lt := Lt) M (map tau assi)) (map (fun ja => (fst ja, tau (snd ja))) l) = mapM (sil_value (Lt := Lt) M assi) l).
      { induction l as [|[i a] l IH]; intros hl; cbn [map mapM]; [reflexivity|]. cbn [fst snd].
        rewrite sil_value_rename by (apply hl; simpl; auto). rewrite IH; [reflexivity|]. intros; apply hl; simpl; auto. }
      apply h. intros i a hin. apply In_enum in hin. exact hin.
    Qed.

    Lemma width_dense_map : width assi <> 1 /\ width (map tau assi) <> 1.
    Proof.
      rewrite (@dense_width K assi), (@dense_width K (map tau assi)) by (auto using dense_map; lia). lia.
    Qed.

    Lemma silhouette_rename samples :
      silhouette (Lt := Lt) M (map tau assi) samples = silhouette (Lt := Lt) M assi samples.
    Proof.
      destruct width_dense_map as [w1 w2]. rewrite !silhouette_eq by auto. rewrite sil_values_rename, map_length. reflexivity.
    Qed.
    Lemma par_silhouette_rename : par_silhouette (Lt := Lt) M (map tau assi) = par_silhouette (Lt := Lt) M assi.
    Proof.
      destruct width_dense_map as [w1 w2]. rewrite !(par_silhouette_eq _ _ false) by auto. rewrite silhouette_rename. reflexivity.
    Qed.
  End Labels.

  (** *** the order of the medoids *)
  Section Medoids.
    Variables meds meds' : list nat.
    Hypothesis Hk : 2 <= length meds.
    Hypothesis Hin : forall m, In m meds -> m < n.
    Hypothesis Hp : Permutation meds meds'.
    Variable P : Nt -> Prop.
    Hypothesis HP : linear nltb P.
    Hypothesis HPD : forall i j, i < n -> j < n -> P (D i j).

    Lemma ms_best_least2 (l : list nat) i : 2 <= length l -> (forall m, In m l -> m < n) -> i < n ->
      oks (ms_best M l i) (least2 nltb (map (D i) l)).
    Proof.
      intros hk hin hi. unfold ms_best. destruct l as [|m0 [|m1 l]]; simpl in hk; try lia.
      assert (h0 : m0 < n) by (apply hin; simpl; auto). assert (h1 : m1 < n) by (apply hin; simpl; auto).
      cbn [idx nth_error bind skipn]. rewrite !(proj2 (proj2 HM)) by auto. cbn [bind].
      apply foldM_oks with (I := fun pre best => least2 nltb (map (D i) (m0 :: m1 :: pre)) best).
      - apply (least2_pair HP); auto.
      - intros pre m post best e hb.
        assert (hm : m < n) by (apply hin; simpl; rewrite e; right; right; apply in_or_app; simpl; auto).
        rewrite (proj2 (proj2 HM)) by auto. cbn [bind oks].
        change (m0 :: m1 :: pre ++ [m]) with ((m0 :: m1 :: pre) ++ [m]). rewrite map_app. cbn [map].
        apply (least2_snoc HP); auto.
        intros y hy. apply in_map_iff with (f := D i) (l := m0 :: m1 :: pre) in hy as (x & <- & hx). apply HPD; auto.
        apply hin. simpl in *. rewrite e. destruct hx as [hx|[hx|hx]]; auto. right. right. apply in_or_app. auto.
    Qed.

    Lemma ms_best_perm i : i < n -> ms_best M meds' i = ms_best M meds i.
    Proof.
      intros hi. assert (hk' : 2 <= length meds') by (rewrite <- (Permutation_length Hp); auto).
      assert (hin' : forall m, In m meds' -> m < n) by (intros m hm; apply Hin; apply (Permutation_in _ (Permutation_sym Hp)); auto).
      pose proof (ms_best_least2 meds Hk Hin hi) as h1. apply oks_inv in h1 as (b & -> & h1).
      pose proof (ms_best_least2 meds' hk' hin' hi) as h2. apply oks_inv in h2 as (b' & -> & h2).
      f_equal. symmetry. eapply (least2_unique HP); [|apply Permutation_map; exact Hp|exact h1|exact h2].
      intros y hy. apply in_map_iff in hy as (x & <- & hx). auto.
    Qed.

    Lemma medoid_silhouette_perm samples : medoid_silhouette (Lt := Lt) M meds' samples = medoid_silhouette (Lt := Lt) M meds samples.
    Proof.
      unfold medoid_silhouette. rewrite (Permutation_length Hp).
      destruct (msquare M); cbn [bind]; [|reflexivity]. destruct (assertb _ _); cbn [bind]; [|reflexivity].
      destruct (assertb _ _); cbn [bind]; [|reflexivity]. destruct (length meds' =? 1); [reflexivity|].
      destruct (assertb _ _); cbn [bind]; [|reflexivity]. f_equal.
      assert (hext : forall l x, (forall i, In i l -> i < n) ->
         foldM (ms_step (Lt := Lt) M meds' samples) l x = foldM (ms_step (Lt := Lt) M meds samples) l x).
      { induction l as [|i l IH]; intros x hl; cbn [foldM]; [reflexivity|].
        assert (hs : ms_step (Lt := Lt) M meds' samples x i = ms_step (Lt := Lt) M meds samples x i).
        { unfold ms_step. destruct x. rewrite ms_best_perm by (apply hl; simpl; auto). reflexivity. }
        rewrite hs. destruct (ms_step M meds samples x i); cbn [bind]; [|reflexivity]. apply IH. intros; apply hl; simpl; auto. }
      rewrite hext; [reflexivity|]. intros i hi. apply in_seq in hi. rewrite (proj1 HM) in hi. lia.
    Qed.
  End Medoids.
End Bits.
