(** GroupDyn.v -- the medoid silhouette on well separated groups tells the number of groups.
    No statement here refers to the model. *)
From Coq Require Import List Arith Lia ListDec ZArith QArith Lqa Permutation.
From Verif Require Import Spec SpecFacts Approx SortFacts Reference Groups GroupSil GroupMsc DynExact.
Import ListNotations.
Open Scope nat_scope.

Local Notation nQ n := (inject_Z (Z.of_nat n)).

(** every group has more than [c] objects, and different objects of a group are at least [d0] apart *)
Definition crowded (n K : nat) (v : diss) (g : nat -> nat) (c : nat) (d0 : Q) : Prop :=
  (forall x, x < K -> exists l, NoDup l /\ c < length l /\ forall i, In i l -> i < n /\ g i = x) /\
  (forall i j, i < n -> j < n -> i <> j -> g i = g j -> (d0 <= v i j)%Q).

(** pigeonhole *)
Lemma dup_positions (l : list nat) : ~ NoDup l -> exists a b, a < b < length l /\ nth a l 0 = nth b l 0.
Proof.
  induction l as [|x l IH]; intros h; [exfalso; apply h; constructor|].
  destruct (in_dec Nat.eq_dec x l) as [i|i].
  - destruct (In_nth l x 0 i) as (b & hb & e). exists 0, (S b). cbn [length nth]. split; [lia|auto].
  - destruct IH as (a & b & h1 & h2); [intros c; apply h; constructor; auto|]. exists (S a), (S b). cbn [length nth]. split; [lia|auto].
Qed.

Lemma not_medoid (l med : list nat) : NoDup l -> length med < length l -> exists i, In i l /\ ~ In i med.
Proof.
  intros hn hl. destruct (Exists_dec (fun i => ~ In i med) l) as [h|h].
  - intros i. destruct (in_dec Nat.eq_dec i med); [right; tauto|left; auto].
  - apply Exists_exists in h. exact h.
  - exfalso. assert (hi : incl l med).
    { intros i hi. destruct (in_dec Nat.eq_dec i med) as [y|y]; [exact y|]. exfalso. apply h. apply Exists_exists. eauto. }
    pose proof (NoDup_incl_length hn hi). lia.
Qed.

(** two medoids at a distance of at most [d] *)
Lemma second_at_most l d a b x y rest rest' : Permutation l (a :: b :: rest) -> (forall z, In z rest -> (b <= z)%Q) ->
  Permutation l (x :: y :: rest') -> (x <= d)%Q -> (y <= d)%Q -> (b <= d)%Q.
Proof.
  intros h1 h2 h3 hx hy. destruct (Qlt_le_dec d b) as [h|h]; [exfalso|exact h].
  assert (hb : forall z, In z (b :: rest) -> (d < z)%Q) by (intros z [<-|hz]; [exact h|specialize (h2 z hz); lra]).
  assert (hp : Permutation (x :: y :: rest') (a :: b :: rest)) by (rewrite <- h3; exact h1).
  assert (e : a = x).
  { destruct (Permutation_in x hp (or_introl eq_refl)) as [e|e]; [exact e|]. specialize (hb x e). lra. }
  subst a. apply Permutation_cons_inv in hp. specialize (hb y (Permutation_in y hp (or_introl eq_refl))). lra.
Qed.

Section GroupDyn.
  Variables (n K : nat) (v : diss) (g : nat -> nat) (d s : Q).
  Hypothesis HV : dissimilarity n v.
  Hypothesis HG : groups n K v g d s.
  Hypothesis Hds : (d < s)%Q.

  (** more medoids than groups: some object has two medoids in its group *)
  Lemma many_low med c d0 : crowded n K v g c d0 -> (0 < d0)%Q -> 2 <= length med -> K < length med <= c -> (forall m, In m med -> m < n) ->
    (d0 / d <= nQ n * (1 - med_sil v n med))%Q.
  Proof.
    intros [hc hd0] hpos h2 hl hin.
    destruct (dup_positions (map g med)) as (p & p' & hp & e).
    { intros hnd. assert (hi : incl (map g med) (seq 0 K)).
      { intros x hx. apply in_map_iff in hx as (m & <- & hm). apply in_seq. pose proof (proj1 HG m (hin m hm)). lia. }
      pose proof (NoDup_incl_length hnd hi) as h. rewrite map_length, seq_length in h. lia. }
    rewrite map_length in hp. rewrite !(nth_indep _ 0 (g 0)), !map_nth in e by (rewrite map_length; lia).
    set (m := nth p med 0) in *. set (m' := nth p' med 0) in *.
    assert (hm : m < n) by (apply hin; apply nth_In; lia). assert (hm' : m' < n) by (apply hin; apply nth_In; lia).
    destruct (hc (g m) (proj1 HG m hm)) as (l & l1 & l2 & l3).
    destruct (not_medoid l med l1 ltac:(lia)) as (o & ho & hno). destruct (l3 o ho) as [hon hgo].
    apply (missing_sil n 2 v HV (le_n 2) _ med o); auto.
    pose proof (@two_least_ex (map (v o) med)) as h. rewrite map_length in h. destruct (h h2) as (rest & q1 & q2 & q3).
    unfold near_ratio. set (a := nth 0 (sortQ (map (v o) med)) 0%Q) in *. set (b := nth 1 (sortQ (map (v o) med)) 0%Q) in *.
    assert (hdm : (v o m <= d)%Q) by (apply (proj1 (proj2 (proj2 HG))); auto).
    assert (hdm' : (v o m' <= d)%Q) by (apply (proj1 (proj2 (proj2 HG))); auto; congruence).
    assert (hb : (b <= d)%Q).
    { destruct (@nth_perm2 _ med p p' 0) as (rest' & r1 & _); [lia|lia|lia|]. apply (Permutation_map (v o)) in r1. cbn [map] in r1.
      eapply second_at_most; [exact q1|exact q3|exact r1|exact hdm|exact hdm']. }
    assert (hne : forall y, In y med -> o <> y) by (intros y hy c0; subst y; exact (hno hy)).
    assert (h0m : (d0 <= v o m)%Q) by (apply hd0; auto; apply hne; apply nth_In; lia).
    assert (ha : (d0 <= a)%Q).
    { assert (hia : In a (map (v o) med)) by (apply (Permutation_in a (Permutation_sym q1)); left; reflexivity).
      apply in_map_iff in hia as (y & <- & hy). destruct (Nat.eq_dec (g o) (g y)) as [ey|ey].
      - apply hd0; auto.
      - pose proof (proj2 (proj2 (proj2 HG)) o y hon (hin y hy) ey). lra. }
    apply div_mono; [lra|lra|lra|]. nra.
  Qed.

  (** fewer medoids than groups miss a group *)
  Lemma few_miss med : 1 <= K -> length med < K -> exists i, i < n /\ forall m, In m med -> g m <> g i.
  Proof.
    intros hK hl. destruct (covers_dec n K g hK med) as [hc|h]; [exfalso|exact h].
    assert (hi : incl (seq 0 K) (map g med)).
    { intros x hx. apply in_seq in hx. destruct (proj1 (proj2 HG) x ltac:(lia)) as (i & hi & <-).
      destruct (hc i hi) as (m & h1 & <-). apply in_map. exact h1. }
    pose proof (NoDup_incl_length (seq_NoDup K 0) hi) as h. rewrite seq_length, map_length in h. lia.
  Qed.
End GroupDyn.
