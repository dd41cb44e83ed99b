(** DynShape.v -- dynmsc.rs without assumptions on the arithmetic: removing a medoid, the rounds,
    and the bookkeeping of the best result. *)
From Coq Require Import ZArith QArith Lqa Lia.
From Verif Require Import Base Num M_Mat M_Util M_Fasterpam M_Silhouette M_Msc M_Dynmsc Hoare
  Spec SpecFacts Laws PamShape ChooseFacts FpFacts PamFacts PamMain MscShape MscFacts MscK2 MscMain.
Set Implicit Arguments.
Open Scope nat_scope.

(** the list after [med[b] = med[l]; med.remove(l)] *)
Definition removed (med : list nat) (b : nat) : list nat :=
  firstn (length med - 1) (set_nth med b (nth (length med - 1) med 0)).

Lemma length_removed med b : length (removed med b) = length med - 1.
Proof. unfold removed. rewrite firstn_length, length_set_nth. lia. Qed.

Lemma nth_firstn_lt A (l : list A) d i k : i < k -> nth i (firstn k l) d = nth i l d.
Proof.
  revert i k. induction l as [|x l IH]; intros i k h; destruct k; simpl; try lia; auto.
  destruct i; auto. apply IH. lia.
Qed.

(** slot [y] of the shortened list is slot [old y] of the list before *)
Definition oldslot (l b y : nat) : nat := if y =? b then l else y.
Definition newslot (l b x : nat) : nat := if x =? l then b else x.

Lemma nth_removed med b y : b < length med -> y < length med - 1 ->
  nth y (removed med b) 0 = nth (oldslot (length med - 1) b y) med 0.
Proof.
  intros hb hy. unfold removed, oldslot. rewrite nth_firstn_lt by auto.
  destruct (Nat.eqb_spec y b) as [->|h]; [apply nth_set_nth_eq; auto|apply nth_set_nth_neq; auto].
Qed.

Lemma oldslot_ok l b y : b <= l -> y < l -> oldslot l b y <= l /\ oldslot l b y <> b /\ newslot l b (oldslot l b y) = y.
Proof.
  intros hb hy. unfold oldslot, newslot. destruct (Nat.eqb_spec y b) as [->|h].
  - rewrite Nat.eqb_refl. split; [lia|]. split; [lia|auto].
  - split; [lia|]. split; [auto|]. destruct (Nat.eqb_spec y l); [lia|auto].
Qed.

Lemma newslot_ok l b x : b <= l -> x <= l -> x <> b -> newslot l b x < l /\ oldslot l b (newslot l b x) = x.
Proof.
  intros hb hx hne. unfold oldslot, newslot. destruct (Nat.eqb_spec x l) as [->|h].
  - rewrite Nat.eqb_refl. split; [lia|auto].
  - split; [lia|]. destruct (Nat.eqb_spec x b); [lia|auto].
Qed.

Lemma newslot_inj (med : list nat) b x y : b < length med ->
  x < length med -> y < length med -> x <> b -> y <> b -> x <> y ->
  newslot (length med - 1) b x <> newslot (length med - 1) b y.
Proof.
  intros hb hx hy h1 h2 hne e.
  destruct (@newslot_ok (length med - 1) b x) as [_ e1]; [lia|lia|auto|].
  destruct (@newslot_ok (length med - 1) b y) as [_ e2]; [lia|lia|auto|]. congruence.
Qed.

Lemma nth_new med b x : b < length med -> x < length med -> x <> b ->
  nth (newslot (length med - 1) b x) (removed med b) 0 = nth x med 0.
Proof.
  intros hb hx hne. destruct (@newslot_ok (length med - 1) b x) as [h3 h4]; [lia|lia|auto|].
  rewrite nth_removed by (auto; lia). rewrite h4. auto.
Qed.

Lemma removed_inr n med b : inr n med -> b < length med -> inr n (removed med b).
Proof.
  intros hin hb m hm. unfold removed in hm.
  assert (hm' : In m (set_nth med b (nth (length med - 1) med 0))).
  { rewrite <- (firstn_skipn (length med - 1) (set_nth _ _ _)). apply in_or_app. auto. }
  apply set_nth_In in hm' as [->|hm']; auto. apply hin. apply nth_In. lia.
Qed.

Lemma removed_NoDup med b : NoDup med -> b < length med -> NoDup (removed med b).
Proof.
  intros hnd hb. apply (NoDup_nth _ 0). rewrite length_removed. intros i j hi hj e.
  rewrite !nth_removed in e by auto.
  destruct (@oldslot_ok (length med - 1) b i) as (i1 & i2 & i3); try lia.
  destruct (@oldslot_ok (length med - 1) b j) as (j1 & j2 & j3); try lia.
  rewrite <- i3, <- j3. f_equal. apply (proj1 (NoDup_nth med 0) hnd); auto; lia.
Qed.

Section Shape.
  Context {Nt Lt : Type} `{HNN : NumN Nt} `{HNL : NumL Lt} `{HFN : FromN Nt Lt}.
  Variable M : Mat Nt.
  Variable n : nat.
  Variable D : nat -> nat -> Nt.
  Hypothesis HM : is_matrix M n D.

  Local Notation Dg := (Dg n D).
  Local Notation Emb := (Emb n D).
  Local Notation inr := (inr n).
  Local Notation dp_is := (dp_is n D).

  (** [update_third_nearest_without_new] returns some medoid other than [p] and [q] if there is
      one; not always the nearest (see C31) *)
  Lemma utnwn_ok med p q b o : inr med -> o < n ->
    oks (update_third_nearest_without_new M med p q b o) (fun s =>
      forall x, x < length med -> x <> p -> x <> q ->
        exists c, c < length med /\ c <> p /\ c <> q /\ s = DP (Some c) (D o (nth c med 0))).
  Proof.
    intros hin ho. unfold update_third_nearest_without_new. eapply oks_mono.
    - apply foldM_enum with (I := fun t (s : dpair Nt) =>
        ((forall x, x < t -> x = p \/ x = q) /\ s = DP (Some b) nzero) \/
        exists c, c < length med /\ c <> p /\ c <> q /\ s = DP (Some c) (D o (nth c med 0))).
      + left. split; [lia|auto].
      + intros t mi s hmi hs. pose proof (nth_error_lt _ _ hmi) as ht.
        pose proof (nth_error_nth _ _ 0 hmi) as hnth.
        destruct ((t =? p) || (t =? q)) eqn:e.
        * cbn [oks]. destruct hs as [[h1 h2]|h]; [left|right; auto]. split; [|auto].
          intros x hx. destruct (Nat.eq_dec x t) as [->|]; [|apply h1; lia].
          apply orb_true_iff in e as [e|e]; apply Nat.eqb_eq in e; auto.
        * apply orb_false_iff in e as [e1 e2]. apply Nat.eqb_neq in e1, e2.
          assert (hmn : mi < n) by (apply hin; eapply nth_error_In; eauto).
          rewrite (get_ok HM) by auto. cbn [bind oks]. right.
          assert (G : exists c, c < length med /\ c <> p /\ c <> q /\
                   DP (Some t) (D o mi) = DP (Some c) (D o (nth c med 0))).
          { exists t. rewrite hnth. auto. }
          destruct hs as [[h1 ->]|h].
          -- cbn [di ieqb]. rewrite Nat.eqb_refl. auto.
          -- destruct (ieqb (di s) b || nltb (D o mi) (dd s)); auto.
    - intros s [[h1 h2]|h] x hx hp hq; [|auto]. destruct (h1 x hx); tauto.
  Qed.

  (** the nearest two medoids only *)
  Definition rec2 (X : Prop) (t : nat) (med : list nat) (o : nat) (r : Reco Nt) : Prop :=
    exists a b, a < t /\ b < t /\ a <> b /\ dp_is med o (near3 r) a /\ dp_is med o (seco3 r) b /\
      (X -> Dg -> forall v, Emb v -> two_min v med o t a b).

  Section Remove.
    Variable X : Prop.
    Variables (med : list nat) (b o : nat).
    Hypothesis hin : inr med.
    Hypothesis hb : b < length med.
    Hypothesis hk : 3 <= length med.
    Hypothesis ho : o < n.
    Let l := length med - 1.
    Let med' := removed med b.

    Lemma dp_renumber p x : x < length med -> x <> b -> dp_is med o p x ->
      dp_is med' o (renumber l b p) (newslot l b x) /\ newslot l b x < l.
    Proof.
      intros hx hne [h1 h2]. destruct (@newslot_ok l b x) as [h3 h4]; [unfold l; lia|unfold l; lia|auto|].
      split; [|auto]. split.
      - unfold renumber. rewrite h1. cbn [ieqb]. unfold newslot. destruct (x =? l); auto.
      - intros hg. unfold med'. rewrite nth_removed by (auto; fold l; lia). fold l. rewrite h4, <- h2 by auto.
        unfold renumber. destruct (ieqb (di p) l); auto.
    Qed.

    Lemma renumber_index (p : dpair Nt) x : di p = Some x -> as_usize (di (renumber l b p)) = newslot l b x.
    Proof. intros e. unfold renumber, newslot. rewrite e. cbn [ieqb]. destruct (x =? l); cbn [di]; rewrite ?e; auto. Qed.

    (** the records after the removal; the third medoid is the third nearest if it is the only
        one left besides the two nearest *)
    Lemma remove_med_obj_ok r : rec3 n D X (length med) med o r ->
      oks (remove_med_obj (Lt := Lt) M med' l b (o, r)) (fun p =>
        snd p = rec_ratio (fst p) /\ rec2 X l med' o (fst p) /\
        (4 <= length med -> rec3 n D (X /\ length med <= 4) l med' o (fst p)) /\
        (own3 (length med) med o r -> own3 l med' o (fst p))).
    Proof.
      intros (a & s & ha & hs & has & hda & hds & hmin & [[h _]|[_ (c & hc & hca & hcs & hdc & hmin3)]]); [lia|].
      assert (hin' : inr med') by (apply removed_inr; auto).
      assert (hlen : length med' = l) by apply length_removed.
      assert (hmem : forall y, y < l -> exists x, x < length med /\ x <> b /\ y = newslot l b x /\ nth y med' 0 = nth x med 0).
      { intros y hy. destruct (@oldslot_ok l b y) as (h1 & h2 & h3); [unfold l; lia|auto|].
        exists (oldslot l b y). split; [unfold l in *; lia|]. split; [auto|]. split; [auto|].
        unfold med', l. apply nth_removed; auto. }
      (* the new record [q]: nearest slot x, second y, third z (old numbers) *)
      assert (G2 : forall q x y,
        x < length med -> y < length med -> x <> b -> y <> b -> x <> y ->
        dp_is med' o (near3 q) (newslot l b x) -> dp_is med' o (seco3 q) (newslot l b y) ->
        (X -> Dg -> forall v, Emb v ->
          (forall m, m < length med -> m <> b -> (v o (nth x med 0%nat) <= v o (nth m med 0%nat))%Q) /\
          (forall m, m < length med -> m <> b -> m <> x -> (v o (nth y med 0%nat) <= v o (nth m med 0%nat))%Q)) ->
        rec2 X l med' o q /\
        (4 <= length med ->
        (exists z, z < l /\ z <> newslot l b x /\ z <> newslot l b y /\ dp_is med' o (third3 q) z /\
          (X /\ length med <= 4 -> Dg -> forall v, Emb v -> third_min v med' o l (newslot l b x) (newslot l b y) z)) ->
        rec3 n D (X /\ length med <= 4) l med' o q)).
      { intros q x y hx hy hxb hyb hxy d1 d2 hm.
        destruct (@newslot_ok l b x) as [x1 x2]; [unfold l; lia|unfold l; lia|auto|].
        destruct (@newslot_ok l b y) as [y1 y2]; [unfold l; lia|unfold l; lia|auto|].
        assert (htwo : X -> Dg -> forall v, Emb v -> two_min v med' o l (newslot l b x) (newslot l b y)).
        { intros hX hg v he. destruct (hm hX hg v he) as [m1 m2]. split.
          + intros m hml. destruct (hmem m hml) as (m' & q1 & q2 & q3 & ->). unfold med', l; rewrite nth_new by auto. auto.
          + intros m hml hne. destruct (hmem m hml) as (m' & q1 & q2 & q3 & ->). unfold med', l; rewrite nth_new by auto.
            apply m2; auto. intros ->. congruence. }
        split; [|intros h4 (z & z1 & z2 & z3 & z4 & z5)]; exists (newslot l b x), (newslot l b y);
          (split; [auto|]); (split; [auto|]); (split; [apply newslot_inj; auto|]); (split; [auto|]);
          (split; [auto|]).
        - auto.
        - split; [intros [hX _]; auto|]. right. split; [unfold l; lia|]. exists z. auto 10. }
      (* a third medoid found by searching *)
      assert (T : forall x y, 4 <= length med -> x < length med -> y < length med -> x <> b -> y <> b -> x <> y ->
        forall t, (forall w, w < length med' -> w <> newslot l b x -> w <> newslot l b y ->
          exists z, z < length med' /\ z <> newslot l b x /\ z <> newslot l b y /\ t = DP (Some z) (D o (nth z med' 0))) ->
        exists z, z < l /\ z <> newslot l b x /\ z <> newslot l b y /\ dp_is med' o t z /\
          (X /\ length med <= 4 -> Dg -> forall v, Emb v -> third_min v med' o l (newslot l b x) (newslot l b y) z)).
      { intros x y h4 hx hy hxb hyb hxy t ht.
        destruct (@newslot_ok l b x) as [x1 x2]; [unfold l; lia|unfold l; lia|auto|].
        destruct (@newslot_ok l b y) as [y1 y2]; [unfold l; lia|unfold l; lia|auto|].
        assert (hw : exists w, w < l /\ w <> newslot l b x /\ w <> newslot l b y).
        { assert (h3 : 3 <= l) by (unfold l; lia).
          assert (hne : newslot l b x <> newslot l b y) by (apply newslot_inj; auto).
          destruct (Nat.eq_dec (newslot l b x) 0); destruct (Nat.eq_dec (newslot l b y) 0); try lia;
          destruct (Nat.eq_dec (newslot l b x) 1); destruct (Nat.eq_dec (newslot l b y) 1);
            first [exists 0; lia | exists 1; lia | exists 2; lia]. }
        destruct hw as (w & w1 & w2 & w3). rewrite hlen in ht.
        destruct (ht w w1 w2 w3) as (z & z1 & z2 & z3 & ->).
        exists z. split; [auto|]. split; [auto|]. split; [auto|]. split; [split; auto|].
        intros [_ h5] _ v _ m hm m1 m2. assert (m = z) as ->; [|lra].
        assert (l3 : l = 3) by (unfold l; clear - h4 h5; lia).
        assert (hxy' : newslot l b x <> newslot l b y) by (apply newslot_inj; auto).
        revert l3 hxy' x1 y1 z1 z2 z3 hm m1 m2. generalize (newslot l b x) (newslot l b y). generalize l. clear.
        intros l' x y -> hne h1 h2 h3 h4 h5 h6 h7 h8. lia. }
      (* an object which is a medoid keeps its own cluster *)
      assert (O : forall q, di (near3 r) = Some a -> (a <> b -> near3 q = renumber l b (near3 r)) ->
        own3 (length med) med o r -> own3 l med' o q).
      { intros q hda' hq hown m hm e. destruct (hmem m hm) as (x & x1 & x2 & -> & ex).
        rewrite ex in e. pose proof (hown x x1 e) as e2. rewrite hda' in e2. injection e2 as ->.
        rewrite hq by auto. unfold renumber, newslot. rewrite hda'. cbn [ieqb].
        destruct (x =? l); cbn [di]; auto. }
      pose proof (proj1 hda) as ia. pose proof (proj1 hds) as is. pose proof (proj1 hdc) as ic.
      unfold remove_med_obj. rewrite ia, is, ic. cbn [ieqb].
      destruct (Nat.eqb_spec a b) as [eab|nab]; [|destruct (Nat.eqb_spec s b) as [esb|nsb];
        [|destruct (Nat.eqb_spec c b) as [ecb|ncb]]].
      - assert (nsb : s <> b) by congruence. assert (ncb : c <> b) by congruence.
        destruct (dp_renumber (x := s) (p := seco3 r)) as [q1 q2]; auto.
        destruct (dp_renumber (x := c) (p := third3 r)) as [q3 q4]; auto.
        rewrite (renumber_index _ is), (renumber_index _ ic).
        eapply oks_bind with (P := fun q => near3 q = renumber l b (seco3 r) /\ seco3 q = renumber l b (third3 r) /\
          (forall w, w < length med' -> w <> newslot l b s -> w <> newslot l b c ->
          exists z, z < length med' /\ z <> newslot l b s /\ z <> newslot l b c /\ third3 q = DP (Some z) (D o (nth z med' 0)))).
        + eapply oks_bind; [apply utnwn_ok; auto|]. intros t ht. cbn [oks near3 seco3 third3]. auto.
        + intros q (e1 & e2 & e3). cbn [oks fst snd]. split; [auto|].
          destruct (G2 q s c) as [g2 g3]; auto; try congruence.
          { intros hX hg v he. destruct (hmin hX hg v he) as [m1 m2]. specialize (hmin3 hX hg v he).
            subst a. split; intros m hm h; [apply m2; auto|intros h'; apply hmin3; auto]. }
          split; [auto|]. split; [auto|]. apply O; auto. congruence.
      - assert (ncb : c <> b) by congruence.
        destruct (dp_renumber (x := a) (p := near3 r)) as [q1 q2]; auto.
        destruct (dp_renumber (x := c) (p := third3 r)) as [q3 q4]; auto.
        rewrite (renumber_index _ ia), (renumber_index _ ic).
        eapply oks_bind with (P := fun q => near3 q = renumber l b (near3 r) /\ seco3 q = renumber l b (third3 r) /\
          (forall w, w < length med' -> w <> newslot l b a -> w <> newslot l b c ->
          exists z, z < length med' /\ z <> newslot l b a /\ z <> newslot l b c /\ third3 q = DP (Some z) (D o (nth z med' 0)))).
        + eapply oks_bind; [apply utnwn_ok; auto|]. intros t ht. cbn [oks near3 seco3 third3]. auto.
        + intros q (e1 & e2 & e3). cbn [oks fst snd]. split; [auto|].
          destruct (G2 q a c) as [g2 g3]; auto; try congruence.
          { intros hX hg v he. destruct (hmin hX hg v he) as [m1 m2]. specialize (hmin3 hX hg v he).
            subst s. split; intros m hm h; [apply m1; auto|intros h'; apply hmin3; auto]. }
      - destruct (dp_renumber (x := a) (p := near3 r)) as [q1 q2]; auto.
        destruct (dp_renumber (x := s) (p := seco3 r)) as [q3 q4]; auto.
        rewrite (renumber_index _ ia), (renumber_index _ is).
        eapply oks_bind with (P := fun q => near3 q = renumber l b (near3 r) /\ seco3 q = renumber l b (seco3 r) /\
          (forall w, w < length med' -> w <> newslot l b a -> w <> newslot l b s ->
          exists z, z < length med' /\ z <> newslot l b a /\ z <> newslot l b s /\ third3 q = DP (Some z) (D o (nth z med' 0)))).
        + eapply oks_bind; [apply utnwn_ok; auto|]. intros t ht. cbn [oks near3 seco3 third3]. auto.
        + intros q (e1 & e2 & e3). cbn [oks fst snd]. split; [auto|].
          destruct (G2 q a s) as [g2 g3]; auto; try congruence.
          { intros hX hg v he. destruct (hmin hX hg v he) as [m1 m2].
            split; intros m hm h; [apply m1; auto|intros h'; apply m2; auto]. }
      - destruct (dp_renumber (x := a) (p := near3 r)) as [q1 q2]; auto.
        destruct (dp_renumber (x := s) (p := seco3 r)) as [q3 q4]; auto.
        destruct (dp_renumber (x := c) (p := third3 r)) as [q5 q6]; auto.
        cbn [bind oks fst snd]. split; [auto|].
        edestruct (G2 (mkReco (renumber l b (near3 r)) (renumber l b (seco3 r)) (renumber l b (third3 r))) a s)
          as [g2 g3]; auto.
        { intros hX hg v he. destruct (hmin hX hg v he) as [m1 m2].
          split; intros m hm h; [apply m1; auto|intros h'; apply m2; auto]. }
        split; [auto|]. split.
        + intros h4. apply g3; auto. exists (newslot l b c). split; [auto|]. split; [apply newslot_inj; auto|].
            split; [apply newslot_inj; auto|]. split; [auto|].
            intros [hX _] hg v he m hm m1 m2. specialize (hmin3 hX hg v he).
            destruct (hmem m hm) as (m' & p1 & p2 & p3 & ->). unfold med', l; rewrite nth_new by auto.
            apply hmin3; auto; intros ->; congruence.
        + apply O; auto.
    Qed.
  End Remove.

  Lemma data3_weaken (X Y : Prop) med (data : list (Reco Nt)) : (Y -> X) ->
    data3_ok n D X med data -> data3_ok n D Y med data.
  Proof.
    intros hXY [h1 h2]. split; [auto|]. intros o r hr.
    destruct (h2 o r hr) as (a & b & q1 & q2 & q3 & q4 & q5 & q6 & q7). exists a, b.
    split; [auto|]. split; [auto|]. split; [auto|]. split; [auto|]. split; [auto|]. split; [auto|].
    destruct q7 as [q7|[h3 (c & c1 & c2 & c3 & c4 & c5)]]; [left; auto|right]. split; [auto|].
    exists c. auto 10.
  Qed.

  Lemma remove_med_ok X med (data : list (Reco Nt)) b :
    1 <= n -> inr med -> b < length med -> 3 <= length med -> data3_ok n D X med data ->
    oks (remove_med (Lt := Lt) M med data b) (fun '(med', data', loss') =>
      med' = removed med b /\ length data' = n /\ ratio_sum data' = Some loss' /\
      (forall o r, nth_error data' o = Some r -> rec2 X (length med - 1) med' o r) /\
      (4 <= length med -> data3_ok n D (X /\ length med <= 4) med' data') /\
      (data3_own med data -> data3_own med' data')).
  Proof.
    intros hn hin hb hk [hlen hdata]. unfold remove_med.
    apply Nat.ltb_lt in hb as hb0. rewrite hb0. cbn [bind assertb].
    rewrite idx_nth with (d := 0) by lia. cbn [bind]. rewrite upd_ok by auto. cbn [bind].
    change (firstn (length med - 1) (set_nth med b (nth (length med - 1) med 0))) with (removed med b).
    eapply oks_bind.
    { apply mapM_enum with (R := fun o r (p : Reco Nt * Lt) =>
        snd p = rec_ratio (fst p) /\ rec2 X (length med - 1) (removed med b) o (fst p) /\
        (4 <= length med -> rec3 n D (X /\ length med <= 4) (length med - 1) (removed med b) o (fst p)) /\
        (own3 (length med) med o r -> own3 (length med - 1) (removed med b) o (fst p))).
      intros o r hr. apply remove_med_obj_ok; auto. rewrite <- hlen. apply nth_error_lt with (1 := hr). }
    intros rs [hl hrs]. cbv beta in hrs.
    destruct (reduce_some ladd (l := map snd rs)) as [y ey].
    { destruct rs; simpl in *; [lia|congruence]. }
    rewrite ey. cbn [unwrap bind oks].
    assert (P : forall o q, nth_error (map fst rs) o = Some q ->
      exists r p, nth_error data o = Some r /\ nth_error rs o = Some p /\ q = fst p).
    { intros o q hq. rewrite nth_error_map in hq. destruct (nth_error rs o) as [p|] eqn:ep; [|discriminate].
      injection hq as <-. destruct (nth_error_ex data (i := o)) as [r hr].
      { rewrite <- hl. apply nth_error_lt with (1 := ep). }
      eauto 10. }
    split; [auto|]. split; [rewrite map_length; lia|]. split.
    { rewrite <- ey. unfold ratio_sum. f_equal. rewrite map_map. apply map_ext_in.
      intros p hp. apply In_nth_error in hp as (o & ho).
      destruct (nth_error_ex data (i := o)) as [r hr]; [rewrite <- hl; apply nth_error_lt with (1 := ho)|].
      symmetry. apply (hrs o r p hr ho). }
    split; [|split].
    - intros o q hq. destruct (P o q hq) as (r & p & h1 & h2 & ->). apply (hrs o r p h1 h2).
    - intros h4. split; [rewrite map_length; lia|]. intros o q hq. rewrite length_removed.
      destruct (P o q hq) as (r & p & h1 & h2 & ->). apply (hrs o r p h1 h2). auto.
    - intros hown o q hq. rewrite length_removed.
      destruct (P o q hq) as (r & p & h1 & h2 & ->). apply (hrs o r p h1 h2). apply hown. auto.
  Qed.

  Lemma min_removal_idx (rl : list Lt) : rl <> [] -> exists b, snd (min_removal rl) = Some b /\ b < length rl.
  Proof.
    intros hne. unfold min_removal.
    assert (G : forall l i p, (match snd p with None => i = 0 | Some b => b < i end) ->
      match snd (fold_left (fun r '(o, v) => if (o =? 0) || lltb v (fst r) then (v, Some o) else r)
              (combine (seq i (length l)) l) p) with None => i + length l = 0 | Some b => b < i + length l end).
    { induction l as [|x l IH]; intros i p hp; cbn [length seq combine fold_left].
      - rewrite Nat.add_0_r. auto.
      - replace (i + S (length l)) with (S i + length l) by lia. apply IH.
        destruct (Nat.eqb_spec i 0) as [->|hi]; cbn [orb snd]; [lia|].
        destruct (lltb x (fst p)); cbn [snd]; [lia|]. destruct (snd p); lia. }
    specialize (G rl 0 (lzero, None) eq_refl). unfold enum. cbn [Nat.add] in G.
    destruct (snd _) as [b|]; [eauto|]. destruct rl; [congruence|discriminate].
  Qed.

  (** ** one run for a fixed number of medoids *)
  Lemma msc_run_shape X k maxiter (s0 : mst Nt Lt) :
    1 <= n -> 2 <= k -> m_inv n D X k s0 -> m_swaps s0 = 0 -> m_iter s0 = 0 ->
    oks (whileM maxiter (msc_iteration M) s0) (fun st => m_inv n D X k st /\
        m_iter st <= maxiter /\ m_swaps st <= n * m_iter st /\
        (forall v, Dg -> Emb v -> NoDup (m_med s0) -> data3_own (m_med s0) (m_data s0) ->
           NoDup (m_med st) /\ data3_own (m_med st) (m_data st)) /\
        (Dg -> nis_zero (nzero : Nt) = true -> ratio_sum (m_data s0) = Some (m_loss s0) ->
           ratio_sum (m_data st) = Some (m_loss st))).
  Proof.
    intros hn hk hi0 e1 e2. eapply oks_mono.
    - apply msc_run_inv with (1 := HM) (X := X) (k := k)
        (I := fun st => (forall v, Dg -> Emb v -> NoDup (m_med s0) -> data3_own (m_med s0) (m_data s0) ->
                    NoDup (m_med st) /\ data3_own (m_med st) (m_data st)) /\
                 (Dg -> nis_zero (nzero : Nt) = true -> ratio_sum (m_data s0) = Some (m_loss s0) ->
                    ratio_sum (m_data st) = Some (m_loss st))); auto.
      intros st j s hi hj [hI1 hI2] hcs.
      inversion hcs as [|r a f1 f2 f3 f4|ch b f1 f2 f3|r a ch b data' rl' loss' f1 f2 f3 f4 f5 f6 f7 f8 f9];
        subst; auto.
      destruct hi as [i1 i2 i3 i4].
      assert (hk3 : 2 <= length (m_med st)) by lia.
      pose proof (do_swap3_ok (Lt := Lt) HM hn i2 hj f7 hk3 i3) as hs1.
      apply oks_elim with (2 := f8) in hs1. destruct hs1 as (_ & s1 & s2 & s3 & s4).
      cbn [m_med m_data m_loss]. split.
      + intros v hg he hnd ho. destruct (hI1 v hg he hnd ho) as [g1 g2].
        assert (hjm : ~ In j (m_med st)).
        { intros hjin. apply nth_In_iff in hjin as (c & hc1 & hc2).
          pose proof (g2 j r f2 c hc1 hc2) as hc3. congruence. }
        split; [apply NoDup_set_nth; auto|]. eapply s4; eauto.
      + intros hg hz _. rewrite <- s2. symmetry. apply ratio_sum0_ratio_sum; auto.
        intros r0 hr0. rewrite (s3 r0 hr0). auto.
    - intros st (h1 & [h2 h3] & h4 & h5). auto 10.
  Qed.
End Shape.
