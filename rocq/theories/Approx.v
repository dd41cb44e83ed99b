(** Approx.v -- on metric data, medoids which no single swap improves cost at most five times as much
    as the best medoids (Arya et al. 2001; the proof follows Gupta and Tangwongsan 2008).  Nothing here
    refers to the model. *)
From Coq Require Import List Arith Lia QArith Qminmax Lqa Permutation.
From Verif Require Import Spec SpecFacts.
Import ListNotations.
Set Implicit Arguments.
Open Scope nat_scope.

(** ** Pairing the optimal medoids with local ones *)
Section Pairs.
  Variable k : nat.
  Variable eta : nat -> nat.
  Hypothesis Heta : forall o, o < k -> eta o < k.

  (** how many elements of [l] are mapped to [s] *)
  Definition cnt (f : nat -> nat) (l : list nat) (s : nat) : nat := length (filter (fun o => f o =? s) l).

  Fixpoint sumn (f : nat -> nat) (l : list nat) : nat :=
    match l with [] => 0 | x :: l' => f x + sumn f l' end.

  Lemma sumn_one x m : forall a, a <= x < a + m -> sumn (fun s => if x =? s then 1 else 0) (seq a m) = 1.
  Proof.
    induction m as [|m IH]; intros a h; [lia|]. cbn [seq sumn]. destruct (x =? a) eqn:e.
    - apply Nat.eqb_eq in e. subst a. cut (sumn (fun s => if x =? s then 1 else 0) (seq (S x) m) = 0); [lia|].
      clear. cut (forall b, x < b -> sumn (fun s => if x =? s then 1 else 0) (seq b m) = 0); [intros h; apply h; lia|].
      induction m as [|m IH]; intros b h; [reflexivity|]. cbn [seq sumn].
      destruct (x =? b) eqn:e; [apply Nat.eqb_eq in e; lia|]. rewrite IH by lia. reflexivity.
    - apply Nat.eqb_neq in e. rewrite IH by lia. reflexivity.
  Qed.

  Lemma sumn_plus f g l : sumn (fun s => f s + g s) l = sumn f l + sumn g l.
  Proof. induction l; cbn [sumn]; lia. Qed.
  Lemma sumn_ext f g l : (forall s, In s l -> f s = g s) -> sumn f l = sumn g l.
  Proof. induction l; cbn [sumn]; intros h; [reflexivity|]. rewrite h by (left; reflexivity). rewrite IHl; [reflexivity|]. intros; apply h; right; assumption. Qed.
  Lemma sumn_le f g l : (forall s, In s l -> f s <= g s) -> sumn f l <= sumn g l.
  Proof.
    induction l; cbn [sumn]; intros h; [lia|]. pose proof (h a (or_introl eq_refl)).
    specialize (IHl (fun s hs => h s (or_intror hs))). lia.
  Qed.
  Lemma sumn_const c l : sumn (fun _ => c) l = c * length l.
  Proof. induction l; cbn [sumn length]; [lia|]. rewrite IHl. lia. Qed.
  Lemma sumn_filter (p : nat -> bool) l : sumn (fun s => if p s then 1 else 0) l = length (filter p l).
  Proof. induction l; cbn [sumn filter]; [reflexivity|]. destruct (p a); cbn [length]; lia. Qed.
  Lemma sumn_scale c f l : sumn (fun s => c * f s) l = c * sumn f l.
  Proof. induction l; cbn [sumn]; [lia|]. rewrite IHl. lia. Qed.

  Lemma cnt_cons f x l s : cnt f (x :: l) s = (if f x =? s then 1 else 0) + cnt f l s.
  Proof. unfold cnt. cbn [filter]. destruct (f x =? s); reflexivity. Qed.

  (** counting by target *)
  Lemma sum_cnt f l : (forall o, In o l -> f o < k) -> sumn (cnt f l) (seq 0 k) = length l.
  Proof.
    induction l as [|x l IH]; intros h.
    - cbn [length]. rewrite (sumn_ext _ (fun _ => 0)); [|reflexivity]. rewrite sumn_const. lia.
    - rewrite (sumn_ext _ (fun s => (if f x =? s then 1 else 0) + cnt f l s)) by (intros; apply cnt_cons).
      rewrite sumn_plus, sumn_one, IH; [reflexivity| |].
      + intros o ho. apply h. right. exact ho.
      + pose proof (h x (or_introl eq_refl)). lia.
  Qed.

  Let C := cnt eta (seq 0 k).
  Let bad := filter (fun o => negb (C (eta o) =? 1)) (seq 0 k).
  Let free := filter (fun s => C s =? 0) (seq 0 k).

  Lemma cnt_bad s : cnt eta bad s = if C s =? 1 then 0 else C s.
  Proof.
    assert (h : forall l, cnt eta (filter (fun o => negb (C (eta o) =? 1)) l) s = if C s =? 1 then 0 else cnt eta l s).
    { induction l as [|x l IH]; [destruct (C s =? 1); reflexivity|]. cbn [filter]. rewrite cnt_cons.
      destruct (eta x =? s) eqn:e.
      - apply Nat.eqb_eq in e. rewrite e. destruct (C s =? 1) eqn:ec; cbn [negb]; [exact IH|].
        rewrite cnt_cons, IH, e, Nat.eqb_refl. reflexivity.
      - destruct (negb (C (eta x) =? 1)); [rewrite cnt_cons, e|]; rewrite IH; destruct (C s =? 1); reflexivity. }
    apply h.
  Qed.

  Lemma bad_free : length bad <= 2 * length free.
  Proof.
    assert (h1 : sumn (cnt eta bad) (seq 0 k) = length bad).
    { apply sum_cnt. intros o ho. apply filter_In in ho as [ho _]. apply in_seq in ho. apply Heta. lia. }
    assert (h2 : sumn C (seq 0 k) = k).
    { unfold C. rewrite sum_cnt; [apply seq_length|]. intros o ho. apply in_seq in ho. apply Heta. lia. }
    assert (h3 : sumn (fun s => cnt eta bad s + 2) (seq 0 k) <=
      sumn (fun s => 2 * (if C s =? 0 then 1 else 0) + 2 * C s) (seq 0 k)).
    { apply sumn_le. intros s _. rewrite cnt_bad. destruct (C s) as [|[|c]]; cbn [Nat.eqb]; lia. }
    rewrite !sumn_plus, !sumn_scale, sumn_filter, sumn_const, seq_length in h3. fold free in h3. lia.
  Qed.

  (** two elements for each target *)
  Lemma spread : forall z b : list nat, NoDup z -> NoDup b -> length b <= 2 * length z ->
    exists r, (forall o, In o b -> In (r o) z) /\ forall s, cnt r b s <= 2.
  Proof.
    induction z as [|s0 z IH]; intros b hz hb hl.
    - destruct b; [|cbn in hl; lia]. exists (fun o => o). split; [intros o []|]. intros s. unfold cnt. cbn. lia.
    - inversion hz as [|? ? hn hz']; subst. destruct b as [|x [|y b]].
      + exists (fun o => o). split; [intros o []|]. intros s. unfold cnt. cbn. lia.
      + exists (fun _ => s0). split; [intros; left; reflexivity|]. intros s. unfold cnt. cbn. destruct (s0 =? s); cbn; lia.
      + inversion hb as [|? ? hx hb1]; subst. inversion hb1 as [|? ? hy hb']; subst. cbn [length] in hl.
        destruct (IH b hz' hb' ltac:(lia)) as (r & h1 & h2).
        exists (fun o => if (o =? x) || (o =? y) then s0 else r o).
        assert (hr : forall o, In o b -> (if (o =? x) || (o =? y) then s0 else r o) = r o).
        { intros o ho. destruct (o =? x) eqn:e1; [apply Nat.eqb_eq in e1; subst; exfalso; apply hx; right; exact ho|].
          destruct (o =? y) eqn:e2; [apply Nat.eqb_eq in e2; subst; contradiction|reflexivity]. }
        split.
        * intros o [<-|[<-|ho]]; [rewrite Nat.eqb_refl; left; reflexivity
            |rewrite Nat.eqb_refl, Bool.orb_true_r; left; reflexivity|rewrite hr by exact ho; right; apply h1; exact ho].
        * intros s. rewrite !cnt_cons, !Nat.eqb_refl, Bool.orb_true_r. cbn [orb].
          assert (hc : cnt (fun o => if (o =? x) || (o =? y) then s0 else r o) b s = cnt r b s).
          { unfold cnt. f_equal. apply filter_ext_in. intros o ho. rewrite hr by exact ho. reflexivity. }
          rewrite hc. destruct (s0 =? s) eqn:e; [|exact (h2 s)].
          apply Nat.eqb_eq in e. subst s. cut (cnt r b s0 = 0); [lia|].
          unfold cnt. rewrite (filter_ext_in (fun o => r o =? s0) (fun _ => false)).
          -- clear. induction b; auto.
          -- intros o ho. apply Nat.eqb_neq. intros e. apply hn. rewrite <- e. apply h1. exact ho.
  Qed.

  Lemma cnt_ge2 s o o' l : NoDup l -> In o l -> In o' l -> o <> o' -> eta o = s -> eta o' = s -> 2 <= cnt eta l s.
  Proof.
    intros hn h1 h2 hd e1 e2.
    assert (hi : incl [o; o'] (filter (fun x => eta x =? s) l)).
    { intros x [<-|[<-|[]]]; apply filter_In; (split; [assumption|apply Nat.eqb_eq; assumption]). }
    apply NoDup_incl_length in hi; [exact hi|]. constructor; [intros [h|[]]; congruence|]. constructor; [intros []|constructor].
  Qed.

  (** every [o] is paired with some [r o] to which no other [o'] is mapped by [eta]; each [s] is used at most twice *)
  Lemma pairing : exists r, (forall o, o < k -> r o < k) /\
    (forall o o', o < k -> o' < k -> eta o' = r o -> o' = o) /\
    (forall s, cnt r (seq 0 k) s <= 2).
  Proof.
    destruct (spread (z := free) (b := bad)) as (r0 & h1 & h2).
    1,2: apply NoDup_filter, seq_NoDup. 1: apply bad_free.
    set (r := fun o => if C (eta o) =? 1 then eta o else r0 o). exists r.
    assert (hb : forall o, o < k -> (C (eta o) =? 1) = false -> In o bad).
    { intros o ho e. apply filter_In. split; [apply in_seq; lia|]. rewrite e. reflexivity. }
    split; [|split].
    - intros o ho. unfold r. destruct (C (eta o) =? 1) eqn:e; [apply Heta; exact ho|].
      specialize (h1 o (hb o ho e)). apply filter_In in h1 as [h1 _]. apply in_seq in h1. lia.
    - intros o o' ho ho' he. unfold r in he. destruct (C (eta o) =? 1) eqn:e.
      + apply Nat.eqb_eq in e. destruct (Nat.eq_dec o' o) as [|hd]; [assumption|exfalso].
        assert (2 <= C (eta o)); [|lia]. apply (@cnt_ge2 _ o' o); auto using seq_NoDup; apply in_seq; lia.
      + specialize (h1 o (hb o ho e)). apply filter_In in h1 as [_ h1]. apply Nat.eqb_eq in h1. exfalso.
        unfold C, cnt in h1. apply length_zero_iff_nil in h1.
        assert (hi : In o' (filter (fun x => eta x =? r0 o) (seq 0 k))).
        { apply filter_In. split; [apply in_seq; lia|]. apply Nat.eqb_eq. exact he. }
        rewrite h1 in hi. exact hi.
    - intros s. destruct (C s) as [|[|c]] eqn:ec.
      + (* only bad ones *)
        apply Nat.le_trans with (cnt r0 bad s); [|apply h2]. unfold cnt.
        apply NoDup_incl_length; [apply NoDup_filter, seq_NoDup|]. intros o ho. apply filter_In in ho as [ho he].
        apply in_seq in ho. apply Nat.eqb_eq in he. unfold r in he. destruct (C (eta o) =? 1) eqn:e.
        * rewrite he, ec in e. discriminate e.
        * apply filter_In. split; [apply hb; [lia|exact e]|apply Nat.eqb_eq; exact he].
      + (* only the good one *)
        apply Nat.le_trans with (C s); [|lia]. unfold C, cnt.
        apply NoDup_incl_length; [apply NoDup_filter, seq_NoDup|]. intros o ho. apply filter_In in ho as [ho he].
        apply filter_In. split; [exact ho|]. apply in_seq in ho. apply Nat.eqb_eq in he. unfold r in he.
        destruct (C (eta o) =? 1) eqn:e; [apply Nat.eqb_eq; exact he|exfalso].
        specialize (h1 o (hb o ltac:(lia) e)). rewrite he in h1. apply filter_In in h1 as [_ h1].
        rewrite ec in h1. discriminate h1.
      + (* none *)
        cut (cnt r (seq 0 k) s = 0); [lia|]. unfold cnt. apply length_zero_iff_nil.
        destruct (filter (fun o => r o =? s) (seq 0 k)) as [|o l] eqn:el; [reflexivity|exfalso].
        assert (ho : In o (filter (fun o => r o =? s) (seq 0 k))) by (rewrite el; left; reflexivity).
        apply filter_In in ho as [ho he]. apply in_seq in ho. apply Nat.eqb_eq in he. unfold r in he.
        destruct (C (eta o) =? 1) eqn:e; [rewrite he, ec in e; discriminate e|].
        specialize (h1 o (hb o ltac:(lia) e)). rewrite he in h1. apply filter_In in h1 as [_ h1].
        rewrite ec in h1. discriminate h1.
  Qed.
End Pairs.

(** ** Sums *)
Lemma sumQ_swap A B (f : A -> B -> Q) la lb :
  (sumQ (fun a => sumQ (f a) lb) la == sumQ (fun b => sumQ (fun a => f a b) la) lb)%Q.
Proof.
  induction la as [|a la IH]; cbn [sumQ fold_right].
  - fold (sumQ (fun _ : B => 0%Q) lb). rewrite sumQ_zero. reflexivity.
  - fold (sumQ (fun a => sumQ (f a) lb) la). rewrite IH.
    fold (sumQ (fun b => (f a b + sumQ (fun a => f a b) la)%Q) lb). rewrite sumQ_plus. reflexivity.
Qed.

Definition ind (b : bool) : Q := if b then 1%Q else 0%Q.

Lemma sumQ_ind (f : nat -> nat) s l : (sumQ (fun o => ind (s =? f o)) l == inject_Z (Z.of_nat (cnt f l s)))%Q.
Proof.
  induction l as [|o l IH]; [reflexivity|]. rewrite cnt_cons. cbn [sumQ fold_right].
  fold (sumQ (fun o => ind (s =? f o)) l). rewrite IH, Nat2Z.inj_add, inject_Z_plus. unfold ind.
  rewrite (Nat.eqb_sym s). destruct (f o =? s); reflexivity.
Qed.

Lemma cnt_id s k : s < k -> cnt (fun o => o) (seq 0 k) s = 1.
Proof.
  intros h. unfold cnt. rewrite <- sumn_filter. rewrite (sumn_ext _ (fun o => if s =? o then 1 else 0)).
  - apply sumn_one. lia.
  - intros o _. rewrite Nat.eqb_sym. reflexivity.
Qed.

(** ** Five times the optimum *)
Lemma arg_nearest v o med : med <> [] -> exists a, nearest v o med a.
Proof.
  intros h. destruct (mindist_in v o h) as (m & hm & e). apply nth_In_iff in hm as (a & ha & <-).
  exists a. split; [exact ha|]. intros c hc. rewrite <- e. apply mindist_le. apply nth_In. exact hc.
Qed.

Lemma choice_lt (P : nat -> nat -> Prop) n : (forall i, i < n -> exists a, P i a) -> exists f, forall i, i < n -> P i (f i).
Proof.
  induction n as [|n IH]; intros h.
  - exists (fun i => i). intros i hi. lia.
  - destruct IH as (f & hf); [intros; apply h; lia|]. destruct (h n ltac:(lia)) as (a & ha).
    exists (fun i => if i =? n then a else f i). intros i hi. destruct (i =? n) eqn:e.
    + apply Nat.eqb_eq in e. subst. exact ha.
    + apply Nat.eqb_neq in e. apply hf. lia.
Qed.

Lemma nth_swap_same med b j : b < length med -> nth b (swap med b j) 0 = j.
Proof.
  intros h. unfold swap. rewrite app_nth2; rewrite firstn_length_le by lia; [|lia]. rewrite Nat.sub_diag. reflexivity.
Qed.

Lemma nth_swap_other med b j c : b < length med -> c <> b -> nth c (swap med b j) 0 = nth c med 0.
Proof.
  intros h hc. unfold swap. destruct (Nat.lt_ge_cases c b) as [h1|h1].
  - rewrite app_nth1 by (rewrite firstn_length_le; lia). rewrite <- (firstn_skipn b med) at 2.
    rewrite app_nth1 by (rewrite firstn_length_le; lia). reflexivity.
  - rewrite app_nth2 by (rewrite firstn_length_le; lia). rewrite firstn_length_le by lia.
    rewrite <- (firstn_skipn (S b) med) at 2. rewrite (app_nth2 (firstn (S b) med)) by (rewrite firstn_length_le; lia).
    rewrite firstn_length_le by lia. replace (c - b) with (S (c - S b)) by lia. reflexivity.
Qed.

Lemma sumQ_const A (q : Q) (l : list A) : (sumQ (fun _ => q) l == inject_Z (Z.of_nat (length l)) * q)%Q.
Proof.
  induction l as [|a l IH]; cbn [sumQ map fold_right length]; [unfold inject_Z; ring|].
  unfold sumQ in *. cbn [map fold_right]. rewrite IH, Nat2Z.inj_succ, <- Z.add_1_r, inject_Z_plus. ring.
Qed.

Section Five.
  Variables (v : diss) (n k : nat) (med opt : list nat).
  Hypothesis Hm : metric n v.
  Hypothesis Hmed : forall m, In m med -> m < n.
  Hypothesis Hopt : forall m, In m opt -> m < n.
  Hypothesis Hk : length med = k.
  Hypothesis Hk' : length opt = k.
  (** no swap gains more than [e0] *)
  Variable e0 : Q.
  Hypothesis Hlocal : forall b j, b < length med -> j < n -> (tdev v n med - e0 <= tdev v n (swap med b j))%Q.
  Open Scope Q_scope.

  Let S i := nth i med 0%nat.
  Let O i := nth i opt 0%nat.

  Lemma five_k : (1 <= k)%nat -> tdev v n med <= 5 * tdev v n opt + inject_Z (Z.of_nat k) * e0.
  Proof.
    intros hk. destruct Hm as ((_ & hpos) & hsym & htri).
    assert (hne : med <> []) by (intros ->; simpl in Hk; lia).
    assert (hne' : opt <> []) by (intros ->; simpl in Hk'; lia).
    assert (hS : forall i, (i < k)%nat -> (S i < n)%nat) by (intros i hi; apply Hmed, nth_In; lia).
    assert (hO : forall i, (i < k)%nat -> (O i < n)%nat) by (intros i hi; apply Hopt, nth_In; lia).
    destruct (choice_lt (fun j a => nearest v j med a) (n := n)) as (sg & hsg); [intros; apply arg_nearest; assumption|].
    destruct (choice_lt (fun j a => nearest v j opt a) (n := n)) as (tau & htau); [intros; apply arg_nearest; assumption|].
    destruct (choice_lt (fun o a => nearest v (O o) med a) (n := k)) as (eta & heta); [intros; apply arg_nearest; assumption|].
    destruct (pairing (k := k) eta) as (r & r1 & r2 & r3); [intros o ho; rewrite <- Hk; apply heta; exact ho|].
    assert (hsg' : forall j, (j < n)%nat -> (sg j < k)%nat) by (intros j hj; rewrite <- Hk; apply hsg; exact hj).
    assert (htau' : forall j, (j < n)%nat -> (tau j < k)%nat) by (intros j hj; rewrite <- Hk'; apply htau; exact hj).
    assert (heta' : forall j, (j < k)%nat -> (eta j < k)%nat) by (intros j hj; rewrite <- Hk; apply heta; exact hj).
    set (A := fun j => mindist v j med). set (B := fun j => mindist v j opt).
    assert (hA : forall j, (j < n)%nat -> A j == v j (S (sg j))) by (intros j hj; apply nearest_mindist, hsg, hj).
    assert (hB : forall j, (j < n)%nat -> B j == v j (O (tau j))) by (intros j hj; apply nearest_mindist, htau, hj).
    assert (hB0 : forall j, (j < n)%nat -> 0 <= B j).
    { intros j hj. rewrite hB by exact hj. apply hpos; [exact hj|]. apply hO, htau', hj. }
    (* one swap *)
    assert (one : forall o, (o < k)%nat ->
      - e0 <= sumQ (fun j => ind (tau j =? o) * (B j - A j) + ind (sg j =? r o) * (2 * B j)) (seq 0 n)).
    { intros o ho.
      assert (h : tdev v n (swap med (r o) (O o)) <=
        sumQ (fun j => A j + (ind (tau j =? o) * (B j - A j) + ind (sg j =? r o) * (2 * B j))) (seq 0 n)).
      { unfold tdev. apply sumQ_le. intros j hj. apply in_seq in hj. assert (hj' : (j < n)%nat) by lia. clear hj.
        assert (hr : (r o < length med)%nat) by (rewrite Hk; apply r1, ho).
        assert (hin : forall c, (c < k)%nat -> c <> r o -> mindist v j (swap med (r o) (O o)) <= v j (S c)).
        { intros c hc hcr. unfold S. rewrite <- (@nth_swap_other med (r o) (O o) c) by assumption.
          apply mindist_le, nth_In. rewrite length_swap by exact hr. lia. }
        pose proof (hB0 j hj') as hb0.
        destruct (Nat.eqb_spec (tau j) o) as [e|e].
        - assert (hd : mindist v j (swap med (r o) (O o)) <= B j).
          { rewrite hB by exact hj'. rewrite e. apply mindist_le.
            rewrite <- (@nth_swap_same med (r o) (O o)) at 1 by exact hr.
            apply nth_In. rewrite length_swap by exact hr. exact hr. }
          unfold ind. destruct (sg j =? r o); lra.
        - destruct (Nat.eqb_spec (sg j) (r o)) as [e'|e'].
          + pose proof (htau' j hj') as ht. pose proof (heta' _ ht) as he.
            assert (hne2 : eta (tau j) <> r o) by (intros h; apply e, r2; auto).
            pose proof (hin (eta (tau j)) he hne2) as h1.
            pose proof (htri j (O (tau j)) (S (eta (tau j))) hj' (hO _ ht) (hS _ he)) as h2.
            pose proof (proj2 (heta _ ht) (sg j) ltac:(rewrite Hk; apply hsg', hj')) as h3. fold (S (eta (tau j))) (S (sg j)) in h3.
            pose proof (htri (O (tau j)) j (S (sg j)) (hO _ ht) hj' (hS _ (hsg' j hj'))) as h4.
            pose proof (hsym (O (tau j)) j (hO _ ht) hj') as h5.
            pose proof (hA j hj') as h6. pose proof (hB j hj') as h7. unfold ind. lra.
          + pose proof (hin (sg j) (hsg' j hj') e') as h1. rewrite <- (hA j hj') in h1. unfold ind. lra. }
      rewrite sumQ_plus in h. fold (tdev v n med) in h.
      pose proof (Hlocal (b := r o) (j := O o) ltac:(rewrite Hk; apply r1, ho) (hO o ho)) as h'.
      change (sumQ A (seq 0 n)) with (tdev v n med) in h. lra. }
    (* all of them *)
    assert (all : - (inject_Z (Z.of_nat k) * e0) <= sumQ (fun j => (B j - A j) + 4 * B j) (seq 0 n)).
    { apply Qle_trans with (sumQ (fun o => sumQ (fun j => ind (tau j =? o) * (B j - A j) + ind (sg j =? r o) * (2 * B j)) (seq 0 n)) (seq 0 k)).
      - apply Qle_trans with (sumQ (fun _ => - e0) (seq 0 k)).
        + rewrite sumQ_const. rewrite seq_length. apply Qle_lteq. right. ring.
        + apply sumQ_le. intros o ho. apply in_seq in ho. apply one. lia.
      - rewrite sumQ_swap. apply sumQ_le. intros j hj. apply in_seq in hj. assert (hj' : (j < n)%nat) by lia. clear hj.
        rewrite sumQ_plus.
        rewrite (sumQ_ext (fun o => ind (tau j =? o) * (B j - A j)) (fun o => (B j - A j) * ind (tau j =? o))) by (intros; ring).
        rewrite (sumQ_ext (fun o => ind (sg j =? r o) * (2 * B j)) (fun o => (2 * B j) * ind (sg j =? r o))) by (intros; ring).
        rewrite !sumQ_scale, (sumQ_ind (fun o => o)), (sumQ_ind r), cnt_id by (apply htau', hj').
        assert (h : inject_Z (Z.of_nat (cnt r (seq 0 k) (sg j))) <= 2).
        { change 2 with (inject_Z 2). rewrite <- Zle_Qle. pose proof (r3 (sg j)). lia. }
        pose proof (hB0 j hj') as hb0. change (inject_Z (Z.of_nat 1)) with 1.
        assert (2 * B j * inject_Z (Z.of_nat (cnt r (seq 0 k) (sg j))) <= 2 * B j * 2).
        { rewrite (Qmult_comm (2 * B j) (inject_Z _)), (Qmult_comm (2 * B j) 2). apply Qmult_le_compat_r; lra. }
        lra. }
    rewrite sumQ_plus, sumQ_minus, sumQ_scale in all.
    change (sumQ A (seq 0 n)) with (tdev v n med) in all. change (sumQ B (seq 0 n)) with (tdev v n opt) in all. lra.
  Qed.
End Five.

(** the other medoids may be fewer, but not more *)
Theorem five_times_slack v n med opt e : metric n v -> (forall m, In m med -> m < n) -> (forall m, In m opt -> m < n) ->
  1 <= length opt <= length med ->
  (forall b j, b < length med -> j < n -> (tdev v n med - e <= tdev v n (swap med b j))%Q) ->
  (tdev v n med <= 5 * tdev v n opt + inject_Z (Z.of_nat (length med)) * e)%Q.
Proof.
  intros hm h1 h2 hl hs. set (opt' := opt ++ repeat (nth 0 opt 0) (length med - length opt)).
  assert (h3 : (tdev v n med <= 5 * tdev v n opt' + inject_Z (Z.of_nat (length med)) * e)%Q).
  { apply (@five_k v n (length med) med opt'); auto.
    - intros m hin. apply in_app_or in hin as [hin|hin]; [apply h2; exact hin|]. apply repeat_spec in hin. subst.
      apply h2, nth_In. lia.
    - unfold opt'. rewrite app_length, repeat_length. lia.
    - lia. }
  assert (h4 : (tdev v n opt' <= tdev v n opt)%Q).
  { apply tdev_incl; [intros ->; cbn in hl; lia|]. intros m hin. apply in_or_app. left. exact hin. }
  lra.
Qed.

Theorem five_times v n med opt : metric n v -> (forall m, In m med -> m < n) -> (forall m, In m opt -> m < n) ->
  1 <= length opt <= length med -> swap_optimal v n med -> (tdev v n med <= 5 * tdev v n opt)%Q.
Proof.
  intros hm h1 h2 hl hs. pose proof (@five_times_slack v n med opt 0 hm h1 h2 hl) as h.
  assert (hh : forall b j, b < length med -> j < n -> (tdev v n med - 0 <= tdev v n (swap med b j))%Q).
  { intros b j hb hj. pose proof (hs b j hb hj). lra. }
  specialize (h hh). lra.
Qed.
