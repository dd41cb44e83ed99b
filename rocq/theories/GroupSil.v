(** GroupSil.v -- silhouettes of well separated groups.  Nothing here refers to the model. *)
From Coq Require Import List Arith Lia ZArith QArith Qminmax Lqa Permutation.
From Verif Require Import Spec SpecFacts SortFacts Approx Groups.
Import ListNotations.
Open Scope nat_scope.

(** no group has only one object *)
Definition no_singletons (n : nat) (g : nat -> nat) : Prop := forall i, i < n -> exists j, j < n /\ j <> i /\ g j = g i.

Lemma in_others assi i c j : In j (others assi i c) <-> j < length assi /\ j <> i /\ nth j assi 0 = c.
Proof.
  unfold others. rewrite filter_In, in_seq, Bool.andb_true_iff, Bool.negb_true_iff, Nat.eqb_neq, Nat.eqb_eq.
  split; intros h; repeat split; try apply h; lia.
Qed.

Lemma mean_bounds v i l lo hi : l <> [] -> (forall j, In j l -> (lo <= v i j <= hi)%Q) -> (lo <= mean_diss v i l <= hi)%Q.
Proof.
  intros hne h. unfold mean_diss.
  assert (hz : (0 < inject_Z (Z.of_nat (length l)))%Q).
  { change 0%Q with (inject_Z 0). rewrite <- Zlt_Qlt. destruct l; [congruence|cbn [length]; lia]. }
  assert (h1 : (sumQ (fun _ => lo) l <= sumQ (v i) l)%Q) by (apply sumQ_le; intros j hj; apply h; exact hj).
  assert (h2 : (sumQ (v i) l <= sumQ (fun _ => hi) l)%Q) by (apply sumQ_le; intros j hj; apply h; exact hj).
  rewrite sumQ_const in h1, h2.
  split; [apply Qle_shift_div_l|apply Qle_shift_div_r]; try exact hz; lra.
Qed.

Lemma ratio_bound a b d s : (0 <= a <= d)%Q -> (d < s)%Q -> (s <= b)%Q -> (a / b <= d / s)%Q.
Proof.
  intros [h0 h1] h2 h3. assert (hs : (0 < s)%Q) by lra. assert (hb : (0 < b)%Q) by lra.
  apply Qle_shift_div_r; [exact hb|]. unfold Qdiv.
  assert (e : (d == d * / s * s)%Q) by (field; lra).
  assert (h4 : (0 <= d * / s)%Q) by (apply Qmult_le_0_compat; [lra|apply Qlt_le_weak, Qinv_lt_0_compat; exact hs]).
  set (q := (d * / s)%Q) in *. clearbody q. nra.
Qed.

Section GroupSil.
  Variables (n k : nat) (v : diss) (g : nat -> nat) (d s : Q).
  Hypothesis HV : dissimilarity n v.
  Hypothesis HG : groups n k v g d s.
  Hypothesis Hk : 2 <= k.
  Hypothesis Hds : (d < s)%Q.

  Variable assi : list nat.
  Hypothesis Hl : length assi = n.
  (** the clusters are the groups *)
  Hypothesis HA : forall i j, i < n -> j < n -> (nth i assi 0 = nth j assi 0 <-> g i = g j).

  (** an object of another group *)
  Lemma other_group i : i < n -> exists j, j < n /\ g j <> g i.
  Proof.
    intros hi. destruct HG as (h1 & h2 & _). set (c := if g i =? 0 then 1 else 0).
    assert (hc : c < k /\ c <> g i) by (unfold c; destruct (Nat.eqb_spec (g i) 0); lia).
    destruct (h2 c (proj1 hc)) as (j & hj & e). exists j. split; [exact hj|]. rewrite e. apply hc.
  Qed.

  Lemma groups_sil_object i : i < n -> (exists j, j < n /\ j <> i /\ g j = g i) ->
    (1 - d / s <= sil_object v assi i)%Q.
  Proof.
    intros hi (j & hj & hji & e). pose proof HG as (_ & _ & hd & hs). destruct HV as [_ hpos].
    assert (ha : (0 <= sil_a v assi i <= d)%Q).
    { unfold sil_a. apply mean_bounds.
      - intros c. assert (hin : In j (others assi i (nth i assi 0))).
        { apply in_others. split; [lia|]. split; [exact hji|]. apply HA; auto. }
        rewrite c in hin. destruct hin.
      - intros x hx. apply in_others in hx as (h1 & h2 & h3). rewrite Hl in h1. split; [apply hpos; auto|].
        apply hd; auto. symmetry. apply HA; auto. }
    assert (hb : (s <= sil_b v assi i)%Q).
    { unfold sil_b. destruct (other_group i hi) as (x & hx & hg).
      assert (hne : nth x assi 0 <> nth i assi 0) by (intros c; apply hg, HA; auto).
      apply minQ_glb.
      - intros c. apply map_eq_nil in c.
        assert (hin : In (nth x assi 0) (filter (fun c => negb (c =? nth i assi 0)) assi)).
        { apply filter_In. split; [apply nth_In; lia|]. apply Bool.negb_true_iff, Nat.eqb_neq. exact hne. }
        rewrite c in hin. destruct hin.
      - intros y hy. apply in_map_iff in hy as (c & <- & hc). apply filter_In in hc as [h1 h2].
        apply Bool.negb_true_iff, Nat.eqb_neq in h2. apply (In_nth _ _ 0) in h1 as (z & hz & ez). rewrite Hl in hz.
        assert (hzi : z <> i) by (intros ->; congruence).
        assert (hin : In z (others assi i c)) by (apply in_others; split; [lia|auto]).
        assert (hne' : others assi i c <> []) by (intros c'; rewrite c' in hin; destruct hin).
        assert (hall : forall y, In y (others assi i c) -> (s <= v i y)%Q).
        { intros y hy. apply in_others in hy as (q1 & q2 & q3). rewrite Hl in q1. apply hs; auto.
          intros c'. apply h2. rewrite <- q3. symmetry. apply HA; auto. }
        unfold mean_diss.
        assert (hz0 : (0 < inject_Z (Z.of_nat (length (others assi i c))))%Q).
        { change 0%Q with (inject_Z 0). rewrite <- Zlt_Qlt. destruct (others assi i c); [congruence|cbn [length]; lia]. }
        apply Qle_shift_div_l; [exact hz0|].
        assert (h5 : (sumQ (fun _ => s) (others assi i c) <= sumQ (v i) (others assi i c))%Q) by (apply sumQ_le; exact hall).
        rewrite sumQ_const in h5. lra. }
    unfold sil_object. destruct (others assi i (nth i assi 0)) eqn:eo.
    { exfalso. assert (hin : In j (others assi i (nth i assi 0))).
      { apply in_others. split; [lia|]. split; [exact hji|]. apply HA; auto. }
      rewrite eo in hin. destruct hin. }
    assert (em : (Qmax (sil_a v assi i) (sil_b v assi i) == sil_b v assi i)%Q) by (apply Q.max_r; lra).
    rewrite em. pose proof (ratio_bound _ _ _ _ ha Hds hb) as h.
    assert (hb0 : (0 < sil_b v assi i)%Q) by lra.
    assert (e2 : ((sil_b v assi i - sil_a v assi i) / sil_b v assi i == 1 - sil_a v assi i / sil_b v assi i)%Q) by (field; lra).
    rewrite e2. lra.
  Qed.

  Lemma groups_sil_mean : no_singletons n g -> (1 - d / s <= sil_mean v assi)%Q.
  Proof.
    intros hs. assert (hn : 1 <= n) by (destruct HG as (_ & h & _); destruct (h 0 ltac:(lia)) as (i & hi & _); lia).
    unfold sil_mean. rewrite Hl.
    assert (hz : (0 < inject_Z (Z.of_nat n))%Q) by (change 0%Q with (inject_Z 0); rewrite <- Zlt_Qlt; lia).
    apply Qle_shift_div_l; [exact hz|].
    assert (h : (sumQ (fun _ => 1 - d / s) (seq 0 n) <= sumQ (sil_object v assi) (seq 0 n))%Q).
    { apply sumQ_le. intros i hi. apply in_seq in hi. apply groups_sil_object; [lia|]. apply hs. lia. }
    rewrite sumQ_const, seq_length in h. lra.
  Qed.
End GroupSil.

Section GroupMed.
  Variables (n k : nat) (v : diss) (g : nat -> nat) (d s : Q).
  Hypothesis HV : dissimilarity n v.
  Hypothesis HG : groups n k v g d s.
  Hypothesis Hk : 2 <= k.
  Hypothesis Hds : (d < s)%Q.
  Variable med : list nat.
  Hypothesis Hl : length med = k.
  Hypothesis Hin : forall m, In m med -> m < n.
  Hypothesis HC : covers n g med.

  (** only the medoid of the own group is nearer than [s] *)
  Lemma below_one o (l : list nat) : o < n -> NoDup (map g l) -> (forall m, In m l -> m < n) ->
    below s (map (v o) l) <= (if in_dec Nat.eq_dec (g o) (map g l) then 1 else 0).
  Proof.
    intros ho. pose proof (proj2 (proj2 (proj2 HG))) as hs.
    induction l as [|m l IH]; intros hnd hin; [cbn; lia|]. cbn [map] in *. inversion hnd as [|? ? h1 h2]; subst.
    specialize (IH h2 (fun x hx => hin x (or_intror hx))).
    destruct (Nat.eq_dec (g m) (g o)) as [e|ne].
    - pose proof (below_cons_le s (v o m) (map (v o) l)) as hb.
      destruct (in_dec Nat.eq_dec (g o) (map g l)) as [c|c]; [rewrite e in h1; contradiction|].
      destruct (in_dec Nat.eq_dec (g o) (g m :: map g l)) as [_|c']; [lia|]. destruct c'. left. exact e.
    - rewrite below_ge by (apply hs; auto; apply hin; left; reflexivity).
      destruct (in_dec Nat.eq_dec (g o) (map g l)) as [c|c].
      + destruct (in_dec Nat.eq_dec (g o) (g m :: map g l)) as [_|c']; [exact IH|]. destruct c'. right. exact c.
      + destruct (in_dec Nat.eq_dec (g o) (g m :: map g l)); lia.
  Qed.

  Lemma groups_near_ratio o : o < n -> (near_ratio v o med <= d / s)%Q.
  Proof.
    intros ho. destruct HV as [_ hpos].
    assert (hnd : NoDup (map g med)) by (apply (covers_nodup n k v g d s); auto; lia).
    pose proof (below_one o med ho hnd Hin) as hb.
    unfold near_ratio. pose proof (sortQ_perm (map (v o) med)) as hp. pose proof (sortQ_sorted (map (v o) med)) as hso.
    rewrite (below_perm s hp) in hb.
    assert (hle : forall m, In m med -> (nth 0 (sortQ (map (v o) med)) 0 <= v o m)%Q).
    { intros m hm. assert (hx : In (v o m) (sortQ (map (v o) med))) by (apply (Permutation_in _ hp), in_map; exact hm).
      destruct (sortQ (map (v o) med)) as [|p l]; [destruct hx|]. cbn [nth]. destruct hx as [<-|hx]; [lra|]. apply hso. exact hx. }
    destruct (HC o ho) as (m & hm & e). pose proof (hle m hm) as h1.
    pose proof (proj1 (proj2 (proj2 HG)) o m ho (Hin m hm) (eq_sym e)) as h2.
    assert (hpos' : forall x, In x (sortQ (map (v o) med)) -> (0 <= x)%Q).
    { intros x hx. apply (Permutation_in _ (Permutation_sym hp)) in hx. apply in_map_iff in hx as (y & <- & hy). apply hpos; auto. }
    apply Permutation_length in hp. rewrite map_length, Hl in hp.
    destruct (sortQ (map (v o) med)) as [|p [|q r]]; cbn [length] in hp; try lia. cbn [nth] in *.
    apply ratio_bound; auto.
    - split; [apply hpos'; left; reflexivity|lra].
    - destruct (Qlt_le_dec q s) as [hq|hq]; [exfalso|exact hq].
      assert (hpq : (p <= q)%Q) by (apply hso; left; reflexivity).
      rewrite (@below_lt s p) in hb by lra. rewrite below_lt in hb by lra.
      destruct (in_dec Nat.eq_dec (g o) (map g med)); lia.
  Qed.

  Lemma groups_med_sil : (1 - d / s <= med_sil v n med)%Q.
  Proof.
    assert (hn : 1 <= n) by (destruct HG as (_ & h & _); destruct (h 0 ltac:(lia)) as (i & hi & _); lia).
    unfold med_sil.
    assert (h : (sumQ (fun o => near_ratio v o med) (seq 0 n) / inject_Z (Z.of_nat n) <= d / s)%Q); [|lra].
    assert (hz : (0 < inject_Z (Z.of_nat n))%Q) by (change 0%Q with (inject_Z 0); rewrite <- Zlt_Qlt; lia).
    apply Qle_shift_div_r; [exact hz|].
    assert (h : (sumQ (fun o => near_ratio v o med) (seq 0 n) <= sumQ (fun _ => d / s) (seq 0 n))%Q).
    { apply sumQ_le. intros o ho. apply in_seq in ho. apply groups_near_ratio. lia. }
    rewrite sumQ_const, seq_length in h. lra.
  Qed.
End GroupMed.
