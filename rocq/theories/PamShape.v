(** PamShape.v -- invariants of the cached nearest and second nearest medoids (fasterpam.rs),
    without any assumption on the arithmetic.

    Two kinds of hypotheses appear as guards inside the invariants: [Dg], the diagonal is
    [N::zero()] itself, and [Emb v], comparing entries of the matrix with [<] amounts to comparing
    the rational numbers [v].  Without guards the invariants give absence of panics for every
    numeric type. *)
From Coq Require Import ZArith QArith Lqa Lia.
From Verif Require Import Base Num M_Mat M_Util M_Fasterpam Hoare Spec SpecFacts Laws.
Set Implicit Arguments.
Open Scope nat_scope.

(** entries are compared like the rational numbers [v] *)
Definition Emb {Nt} `{NumN Nt} (n : nat) (D : nat -> nat -> Nt) (v : diss) : Prop :=
  (forall x y x' y', x < n -> y < n -> x' < n -> y' < n ->
     (nltb (D x y) (D x' y') = true <-> (v x y < v x' y')%Q)) /\
  dissimilarity n v.

Definition Dg {Nt} `{NumN Nt} (n : nat) (D : nat -> nat -> Nt) : Prop :=
  forall i, i < n -> D i i = nzero.

Lemma emb_vals {Nt} `{OrdLaws Nt} M n D :
  diss_matrix M n D -> Emb n D (vals D) /\ Dg n D.
Proof.
  intros (hm & hd & hv). split; [split; [|split]|]; auto.
  - intros x y x' y' hx hy hx' hy'. apply nltb_spec; apply hv; auto.
  - intros i hi. unfold vals. rewrite hd by auto. apply vN_zero.
  - intros i j hi hj. apply hv; auto.
Qed.

Section Shape.
  Context {Nt Lt : Type} `{HNN : NumN Nt} `{HNL : NumL Lt} `{HFN : FromN Nt Lt}.
  Variable M : Mat Nt.
  Variable n : nat.
  Variable D : nat -> nat -> Nt.
  Hypothesis HM : is_matrix M n D.

  Local Notation Dg := (Dg n D).
  Local Notation Emb := (Emb n D).

  Lemma get_ok x y : x < n -> y < n -> mget M x y = Ok (D x y).
  Proof. apply HM. Qed.
  Lemma len_n : mlen M = n.
  Proof. apply HM. Qed.

  Lemma emb_true v x y x' y' : Emb v -> x < n -> y < n -> x' < n -> y' < n ->
    nltb (D x y) (D x' y') = true -> (v x y < v x' y')%Q.
  Proof. intros [h _] h1 h2 h3 h4 e. apply h; auto. Qed.
  Lemma emb_false v x y x' y' : Emb v -> x < n -> y < n -> x' < n -> y' < n ->
    nltb (D x y) (D x' y') = false -> (v x' y' <= v x y)%Q.
  Proof.
    intros [h _] h1 h2 h3 h4 e. apply Qnot_lt_le. intros c. apply h in c; auto. congruence.
  Qed.
  Lemma emb_diag v i : Emb v -> i < n -> (v i i == 0)%Q.
  Proof. intros [_ [h _]]. auto. Qed.
  Lemma emb_pos v i j : Emb v -> i < n -> j < n -> (0 <= v i j)%Q.
  Proof. intros [_ [_ h]]. auto. Qed.

  Definition inr (med : list nat) : Prop := forall m, In m med -> m < n.

  Lemma inr_nth med c : inr med -> c < length med -> nth c med 0 < n.
  Proof. intros h hc. apply h. apply nth_In. auto. Qed.

  (** the pair [p] cached for object [o] is about medoid number [c] *)
  Definition dp_is (med : list nat) (o : nat) (p : dpair Nt) (c : nat) : Prop :=
    di p = Some c /\ (Dg -> dd p = D o (nth c med 0)).

  Definition two_min (v : diss) (med : list nat) (o t a b : nat) : Prop :=
    (forall c, c < t -> (v o (nth a med 0%nat) <= v o (nth c med 0%nat))%Q) /\
    (forall c, c < t -> c <> a -> (v o (nth b med 0%nat) <= v o (nth c med 0%nat))%Q).

  (** the record of object [o] after looking at the first [t >= 2] medoids *)
  Definition rec2 (t : nat) (med : list nat) (o : nat) (r : Rec Nt) : Prop :=
    exists a b, a < t /\ b < t /\ a <> b /\ dp_is med o (near r) a /\ dp_is med o (seco r) b /\
      (Dg -> forall v, Emb v -> two_min v med o t a b).

  Definition rec1 (med : list nat) (o : nat) (r : Rec Nt) : Prop :=
    dp_is med o (near r) 0 /\ seco r = DP None nzero.

  Definition rect (t : nat) (med : list nat) (o : nat) (r : Rec Nt) : Prop :=
    (t = 1 /\ rec1 med o r) \/ (2 <= t /\ rec2 t med o r).

  (** an object which is a medoid is assigned to itself *)
  Definition own (t : nat) (med : list nat) (o : nat) (r : Rec Nt) : Prop :=
    forall m, m < t -> nth m med 0 = o -> di (near r) = Some m.

  Ltac spl := repeat match goal with
    | |- _ /\ _ => split
    | |- dp_is _ _ _ _ => split
    | |- Dg -> forall v, Emb v -> _ => intros Hg v He
    | |- two_min _ _ _ _ _ _ => split
    end.

  Definition data_ok (med : list nat) (data : list (Rec Nt)) : Prop :=
    length data = n /\
    forall o r, nth_error data o = Some r -> rec2 (length med) med o r.

  Definition data_own (med : list nat) (data : list (Rec Nt)) : Prop :=
    forall o r, nth_error data o = Some r -> own (length med) med o r.

  (** ** initial_assignment *)
  Lemma check_input_ok k : sizes n k -> check_input M k = Ok tt.
  Proof.
    intros (h1 & h2 & h3). unfold check_input. destruct HM as (-> & -> & _). simpl.
    unfold u32_max.
    replace (N.of_nat n <=? 4294967295)%N with true by (symmetry; apply N.leb_le; auto). simpl.
    replace (0 <? k) with true by (symmetry; apply Nat.ltb_lt; lia). simpl.
    replace (N.of_nat k <? 4294967295)%N with true by (symmetry; apply N.ltb_lt; auto). simpl.
    replace (k <=? n) with true by (symmetry; apply Nat.leb_le; lia). auto.
  Qed.

  Lemma ia_step_ok med o t me r :
    inr med -> o < n -> 1 <= t -> nth_error med t = Some me -> rect t med o r ->
    oks (ia_step M o r (t, me)) (rec2 (S t) med o).
  Proof.
    intros hin ho ht hme hr.
    pose proof (nth_error_nth _ _ 0 hme) as enth.
    pose proof (nth_error_lt _ _ hme) as hlt.
    assert (hmn : me < n) by (apply hin; apply nth_error_In with (1 := hme)).
    simpl. rewrite get_ok by auto. simpl.
    destruct hr as [[-> [[hi hd] hs]]|[_ (a & b & ha & hb & hab & [hai had] & [hbi hbd] & hmin)]].
    - (* one medoid so far *)
      rewrite hs. simpl.
      destruct (nltb (D o me) (dd (near r)) || (o =? me)) eqn:e; simpl.
      + exists 1, 0. spl; cbn [near seco di dd]; auto; try congruence; try lia.
        all: intros c hc; try (match goal with |- _ <> _ -> _ => intros hc1 end).
        * assert (c = 0 \/ c = 1) as [->| ->] by lia; [|lra]. rewrite enth.
          apply orb_true_iff in e as [e|e].
          -- rewrite hd in e by auto. eapply emb_true in e; eauto using inr_nth; [lra|].
             apply inr_nth; auto. lia.
          -- apply Nat.eqb_eq in e. rewrite <- e, (emb_diag He ho). apply emb_pos; auto.
             apply inr_nth; auto. lia.
        * assert (c = 0) as -> by lia. lra.
      + apply orb_false_iff in e as [e _].
        exists 0, 1. spl; cbn [near seco di dd]; auto; try congruence; try lia.
        all: intros c hc; try (match goal with |- _ <> _ -> _ => intros hc1 end).
        * assert (c = 0 \/ c = 1) as [->| ->] by lia; [lra|]. rewrite enth.
          rewrite hd in e by auto. eapply emb_false in e; eauto. apply inr_nth; auto. lia.
        * assert (c = 1) as -> by lia. lra.
    - assert (hna : nth a med 0 < n) by (apply inr_nth; auto; lia).
      assert (hnb : nth b med 0 < n) by (apply inr_nth; auto; lia).
      rewrite hbi. simpl.
      destruct (nltb (D o me) (dd (near r)) || (o =? me)) eqn:e; simpl.
      + exists t, a. spl; cbn [near seco di dd]; auto; try congruence; try lia.
        all: intros c hc; try (match goal with |- _ <> _ -> _ => intros hc1 end).
        all: destruct (hmin Hg v He) as [m1 m2].
        * assert (hw : (v o (nth t med 0%nat) <= v o (nth a med 0%nat))%Q).
          { rewrite enth. apply orb_true_iff in e as [e|e].
            - rewrite had in e by auto. eapply emb_true in e; eauto. lra.
            - apply Nat.eqb_eq in e. rewrite <- e, (emb_diag He ho). apply emb_pos; auto. }
          destruct (Nat.eq_dec c t) as [->|]; [lra|]. specialize (m1 c). 
          assert (c < t) by lia. specialize (m1 H). lra.
        * apply m1. lia.
      + apply orb_false_iff in e as [e _].
        destruct (nltb (D o me) (dd (seco r))) eqn:e2; simpl.
        * exists a, t. spl; cbn [near seco di dd]; auto; try congruence; try lia.
          all: intros c hc; try (match goal with |- _ <> _ -> _ => intros hc1 end).
          all: destruct (hmin Hg v He) as [m1 m2].
          -- destruct (Nat.eq_dec c t) as [->|]; [|apply m1; lia]. rewrite enth.
             rewrite had in e by auto. eapply emb_false in e; eauto.
          -- destruct (Nat.eq_dec c t) as [->|]; [lra|]. rewrite enth.
             rewrite hbd in e2 by auto. eapply emb_true in e2; eauto.
             specialize (m2 c). assert (c < t) by lia. specialize (m2 H hc1). lra.
        * exists a, b. spl; cbn [near seco di dd]; auto; try congruence; try lia.
          all: intros c hc; try (match goal with |- _ <> _ -> _ => intros hc1 end).
          all: destruct (hmin Hg v He) as [m1 m2].
          -- destruct (Nat.eq_dec c t) as [->|]; [|apply m1; lia]. rewrite enth.
             rewrite had in e by auto. eapply emb_false in e; eauto.
          -- destruct (Nat.eq_dec c t) as [->|]; [|apply m2; auto; lia]. rewrite enth.
             rewrite hbd in e2 by auto. eapply emb_false in e2; eauto.
  Qed.

  Lemma ia_obj_ok med o :
    inr med -> o < n -> 2 <= length med ->
    oks (ia_obj M med (nth 0 med 0) o)
        (fun p => snd p = lfrom (dd (near (fst p))) /\ rec2 (length med) med o (fst p)).
  Proof.
    intros hin ho hk. unfold ia_obj.
    rewrite get_ok; auto using inr_nth; [|apply inr_nth; auto; lia]. cbn [bind].
    eapply oks_bind.
    - apply foldM_enum_from with (I := fun t r => rect t med o r); [lia| |].
      + left. split; auto. split; auto. split; auto.
      + intros t me r ht hme hr. eapply oks_mono; [apply ia_step_ok; eauto|].
        intros r' hr'. right. split; auto. lia.
    - intros r [[h _]|[_ h]]; [lia|]. simpl. auto.
  Qed.

  Lemma ia_own_step med v o t me r :
    Dg -> Emb v -> NoDup med -> inr med -> o < n -> nth_error med t = Some me -> 1 <= t ->
    rect t med o r -> own t med o r ->
    oks (ia_step M o r (t, me)) (own (S t) med o).
  Proof.
    intros hg he hnd hin ho hme ht hr hown.
    pose proof (nth_error_nth _ _ 0 hme) as enth.
    pose proof (nth_error_lt _ _ hme) as hlt.
    assert (hmn : me < n) by (apply hin; apply nth_error_In with (1 := hme)).
    assert (hinj : forall m, m < t -> nth m med 0 = o -> me <> o).
    { intros m hm e1 e2. assert (m = t); [|lia].
      apply (proj1 (NoDup_nth med 0)); auto; try lia; congruence. }
    assert (hnr : exists a, a < t /\ dp_is med o (near r) a).
    { destruct hr as [[-> [h _]]|[_ (a & b & h1 & _ & _ & h2 & _)]]; eauto. }
    destruct hnr as (a & ha & hai & had).
    simpl. rewrite get_ok by auto. simpl.
    intros m hm em.
    destruct (Nat.eq_dec m t) as [->|hne].
    - rewrite enth in em. subst o. rewrite Nat.eqb_refl, orb_true_r. auto.
    - assert (hm' : m < t) by lia. specialize (hown m hm' em). specialize (hinj m hm' em).
      replace (o =? me) with false by (symmetry; apply Nat.eqb_neq; auto).
      assert (a = m) as -> by congruence.
      destruct (nltb (D o me) (dd (near r))) eqn:e; simpl.
      + exfalso. rewrite had in e by auto. apply emb_true with (v := v) in e; auto.
        * pose proof (emb_pos he ho hmn). rewrite em in e. pose proof (emb_diag he ho). lra.
        * rewrite em. auto.
      + destruct (is_marker (di (seco r)) || nltb (D o me) (dd (seco r))); auto.
  Qed.

  Lemma ia_obj_own med v o :
    Dg -> Emb v -> NoDup med -> inr med -> o < n -> 2 <= length med ->
    oks (ia_obj M med (nth 0 med 0) o) (fun p => own (length med) med o (fst p)).
  Proof.
    intros hg he hnd hin ho hk. unfold ia_obj.
    rewrite get_ok; auto using inr_nth; [|apply inr_nth; auto; lia]. cbn [bind].
    eapply oks_bind.
    - apply foldM_enum_from with (I := fun t r => rect t med o r /\ own t med o r); [lia| |].
      + split.
        * left. split; auto. split; auto. split; auto.
        * intros m hm em. assert (m = 0) as -> by lia. auto.
      + intros t me r ht hme [hr hr2]. apply oks_and.
        * eapply oks_mono; [apply ia_step_ok; eauto|].
          intros r' hr'. right. split; auto. lia.
        * eapply ia_own_step; eauto.
    - intros r [_ h]. exact h.
  Qed.

  Definition near_sum (data : list (Rec Nt)) : option Lt :=
    reduce ladd (map (fun r => lfrom (dd (near r))) data).

  Lemma initial_assignment_ok med :
    sizes n (length med) -> inr med -> 2 <= length med ->
    oks (initial_assignment (Lt := Lt) M med)
        (fun p => data_ok med (snd p) /\ near_sum (snd p) = Some (fst p) /\
                  (forall v, Dg -> Emb v -> NoDup med -> data_own med (snd p))).
  Proof.
    intros hs hin hk. unfold initial_assignment. rewrite check_input_ok by auto. cbn [bind].
    rewrite idx_nth with (d := 0) by lia. cbn [bind]. rewrite len_n.
    eapply oks_bind.
    { apply mapM_seq with (R := fun o (p : Rec Nt * Lt) =>
        (snd p = lfrom (dd (near (fst p))) /\ rec2 (length med) med o (fst p)) /\
        (forall v, Dg -> Emb v -> NoDup med -> own (length med) med o (fst p))).
      intros o ho. pose proof (ia_obj_ok hin ho hk) as h1. apply oks_inv in h1 as (p & e & h1).
      apply oks_intro with (1 := e). split; auto.
      intros v hg he hnd. pose proof (ia_obj_own hg he hnd hin ho hk) as h2.
      apply oks_elim with (1 := h2) in e. auto. }
    intros rs [hl hr]. 
    assert (e : map snd rs = map (fun r => lfrom (dd (near r))) (map fst rs)).
    { rewrite map_map. apply map_ext_in. intros p hp. apply In_nth_error in hp as [o hp].
      apply hr in hp. apply hp. }
    rewrite e. destruct (reduce_some ladd (l := map (fun r => lfrom (dd (near r))) (map fst rs)))
      as [x hx].
    { destruct rs; simpl; [|congruence]. simpl in hl. destruct hs as (h1 & _). lia. }
    unfold near_sum. rewrite hx. simpl. split; [split|split]; auto.
    - rewrite map_length. auto.
    - intros o r h. rewrite nth_error_map in h. destruct (nth_error rs o) eqn:eo; [|discriminate].
      simpl in h. injection h as <-. apply hr in eo. apply eo.
    - intros v hg he hnd o r h. rewrite nth_error_map in h.
      destruct (nth_error rs o) eqn:eo; [|discriminate].
      simpl in h. injection h as <-. apply hr in eo. eapply eo; eauto.
  Qed.

  (** ** update_second_nearest *)
  Lemma update_second_nearest_ok med a b o :
    inr med -> o < n -> a <> b -> b < length med ->
    oks (update_second_nearest M med a b o (D o (nth b med 0)))
        (fun s => exists c, c < length med /\ c <> a /\ di s = Some c /\ dd s = D o (nth c med 0) /\
           forall v, Emb v -> forall c', c' < length med -> c' <> a ->
             (v o (nth c med 0%nat) <= v o (nth c' med 0%nat))%Q).
  Proof.
    intros hin ho hab hb. unfold update_second_nearest.
    eapply oks_mono.
    - apply foldM_enum with (I := fun t (s : dpair Nt) =>
        exists c, c < length med /\ c <> a /\ di s = Some c /\ dd s = D o (nth c med 0) /\
           forall v, Emb v -> forall c', (c' < t \/ c' = b) -> c' <> a ->
             (v o (nth c med 0%nat) <= v o (nth c' med 0%nat))%Q).
      + exists b. cbn [di dd]. split; [auto|]. split; [auto|]. split; [auto|]. split; [auto|].
        intros v he c' [h|h] _; [lia|]. subst. lra.
      + intros t me s hme (c & hc & hca & hi & hd & hmin).
        pose proof (nth_error_nth _ _ 0 hme) as enth.
        pose proof (nth_error_lt _ _ hme) as hlt.
        destruct ((t =? a) || (t =? b)) eqn:e.
        * exists c. split; [auto|]. split; [auto|]. split; [auto|]. split; [auto|].
          intros v he c' h hne. apply hmin; auto.
          apply orb_true_iff in e as [e|e]; apply Nat.eqb_eq in e; lia.
        * apply orb_false_iff in e as [e1 e2]. apply Nat.eqb_neq in e1, e2.
          assert (hmn : me < n) by (apply hin; apply nth_error_In with (1 := hme)).
          assert (hcn : nth c med 0 < n) by (apply inr_nth; auto).
          rewrite get_ok by auto. cbn [bind]. rewrite hd.
          destruct (nltb (D o me) (D o (nth c med 0))) eqn:e; simpl.
          -- exists t. cbn [di dd]. split; [auto|]. split; [auto|]. split; [auto|].
             split; [congruence|].
             intros v he c' h hne. apply emb_true with (v := v) in e; auto. rewrite enth.
             destruct (Nat.eq_dec c' t) as [->|]; [rewrite enth; lra|].
             specialize (hmin v he c'). assert (hx : c' < t \/ c' = b) by lia.
             specialize (hmin hx hne). lra.
          -- exists c. split; [auto|]. split; [auto|]. split; [auto|]. split; [auto|].
             intros v he c' h hne. apply emb_false with (v := v) in e; auto.
             destruct (Nat.eq_dec c' t) as [->|]; [rewrite enth; lra|].
             apply hmin; auto. lia.
    - intros s (c & h1 & h2 & h3 & h4 & h5). exists c. auto 10.
  Qed.

  (** ** do_swap *)
  Lemma inr_set_nth med b j : inr med -> j < n -> inr (set_nth med b j).
  Proof. intros h hj m hm. apply set_nth_In in hm as [->|hm]; auto. Qed.

  Lemma do_swap_obj_ok med b j o r :
    inr med -> o < n -> j < n -> b < length med -> rec2 (length med) med o r ->
    oks (do_swap_obj (Lt := Lt) M (set_nth med b j) b j (o, r))
        (fun p => rec2 (length med) (set_nth med b j) o (fst p) /\
                  snd p = (if o =? j then lzero else lfrom (dd (near (fst p)))) /\
                  (o = j -> near (fst p) = DP (Some b) nzero)).
  Proof.
    intros hin ho hj hb (a & s & ha & hs & has & [hai had] & [hsi hsd] & hmin).
    set (med' := set_nth med b j).
    assert (hin' : inr med') by (apply inr_set_nth; auto).
    assert (hlen : length med' = length med) by apply length_set_nth.
    assert (hb' : nth b med' 0 = j) by (apply nth_set_nth_eq; auto).
    assert (hc' : forall c, c <> b -> nth c med' 0 = nth c med 0)
      by (intros; apply nth_set_nth_neq; auto).
    assert (hna : nth a med 0 < n) by (apply inr_nth; auto).
    assert (hns : nth s med 0 < n) by (apply inr_nth; auto).
    unfold do_swap_obj. rewrite hai, hsi. cbn [ieqb]. cbn [as_usize].
    destruct (o =? j) eqn:eo.
    - apply Nat.eqb_eq in eo. subst o. simpl. split; [|auto].
      destruct (a =? b) eqn:eab; [apply Nat.eqb_eq in eab; subst a|apply Nat.eqb_neq in eab]; simpl.
      + exists b, s. spl; cbn [near seco di dd]; auto.
        * intros hg. rewrite hb'. symmetry. auto.
        * rewrite hc' by auto. auto.
        * intros c hc. rewrite hb', (emb_diag He ho). apply emb_pos; auto. apply inr_nth; auto. lia.
        * intros c hc hcb. rewrite !hc' by auto. apply hmin; auto.
      + exists b, a. spl; cbn [near seco di dd]; auto.
        * intros hg. rewrite hb'. symmetry. auto.
        * rewrite hc' by auto. auto.
        * intros c hc. rewrite hb', (emb_diag He ho). apply emb_pos; auto. apply inr_nth; auto. lia.
        * intros c hc hcb. rewrite !hc' by auto. apply hmin; auto.
    - assert (eo' : o <> j) by (apply Nat.eqb_neq; auto).
      rewrite get_ok by auto. cbn [bind].
      destruct (a =? b) eqn:eab; [apply Nat.eqb_eq in eab; subst a|apply Nat.eqb_neq in eab].
      + destruct (nltb (D o j) (dd (seco r))) eqn:e1.
        * simpl. split; [|split; [auto|intros; congruence]]. exists b, s. spl; cbn [near seco di dd]; auto.
          -- rewrite hc' by auto. auto.
          -- rewrite hsd in e1 by auto. apply emb_true with (v := v) in e1; auto.
             intros c hc. rewrite hb'. destruct (Nat.eq_dec c b) as [->|]; [rewrite hb'; lra|].
             rewrite hc' by auto. destruct (hmin Hg v He) as [_ m2]. specialize (m2 c hc n0). lra.
          -- intros c hc hcb. rewrite !hc' by auto. apply hmin; auto.
        * eapply oks_bind.
          { eapply oks_bind; [rewrite <- hb'; apply update_second_nearest_ok; auto; lia|].
            intros p (c & h1 & h2 & h3 & h4 & h5). apply oks_ok.
            instantiate (1 := fun q => rec2 (length med) med' o q).
            exists s, c. rewrite hlen in *. spl; cbn [near seco di dd]; auto.
            - rewrite hc' by auto. auto.
            - rewrite hsd in e1 by auto. apply emb_false with (v := v) in e1; auto.
              intros c' hc0. rewrite (hc' s) by auto.
              destruct (Nat.eq_dec c' b) as [->|]; [rewrite hb'; lra|].
              rewrite hc' by auto. apply hmin; auto. }
          intros q hq. simpl. split; [auto|split; [auto|intros; congruence]].
      + destruct (nltb (D o j) (dd (near r))) eqn:e1.
        { simpl. split; [|split; [auto|intros; congruence]]. exists b, a. spl; cbn [near seco di dd]; auto.
          - rewrite hc' by auto. auto.
          - rewrite had in e1 by auto. apply emb_true with (v := v) in e1; auto.
            intros c hc. rewrite hb'. destruct (Nat.eq_dec c b) as [->|]; [rewrite hb'; lra|].
            rewrite hc' by auto. destruct (hmin Hg v He) as [m1 _]. specialize (m1 c hc). lra.
          - intros c hc hcb. rewrite !hc' by auto. apply hmin; auto. }
        destruct (nltb (D o j) (dd (seco r))) eqn:e2.
        { simpl. split; [|split; [auto|intros; congruence]]. exists a, b. spl; cbn [near seco di dd]; auto.
          - rewrite hc' by auto. auto.
          - rewrite had in e1 by auto. apply emb_false with (v := v) in e1; auto.
            intros c hc. rewrite (hc' a) by auto.
            destruct (Nat.eq_dec c b) as [->|]; [rewrite hb'; lra|].
            rewrite hc' by auto. apply hmin; auto.
          - rewrite hsd in e2 by auto. apply emb_true with (v := v) in e2; auto.
            intros c hc hca. rewrite hb'. destruct (Nat.eq_dec c b) as [->|]; [rewrite hb'; lra|].
            rewrite hc' by auto. destruct (hmin Hg v He) as [_ m2]. specialize (m2 c hc hca). lra. }
        destruct (s =? b) eqn:esb; [apply Nat.eqb_eq in esb; subst s|apply Nat.eqb_neq in esb].
        * eapply oks_bind.
          { eapply oks_bind; [rewrite <- hb'; apply update_second_nearest_ok; auto; lia|].
            intros p (c & h1 & h2 & h3 & h4 & h5). apply oks_ok.
            instantiate (1 := fun q => rec2 (length med) med' o q).
            exists a, c. rewrite hlen in *. spl; cbn [near seco di dd]; auto.
            - rewrite hc' by auto. auto.
            - rewrite had in e1 by auto. apply emb_false with (v := v) in e1; auto.
              intros c' hc0. rewrite (hc' a) by auto.
              destruct (Nat.eq_dec c' b) as [->|]; [rewrite hb'; lra|].
              rewrite hc' by auto. apply hmin; auto. }
          intros q hq. simpl. split; [auto|split; [auto|intros; congruence]].
        * simpl. split; [|split; [auto|intros; congruence]]. exists a, s. spl; cbn [near seco di dd]; auto.
          -- rewrite hc' by auto. auto.
          -- rewrite hc' by auto. auto.
          -- rewrite had in e1 by auto. apply emb_false with (v := v) in e1; auto.
             intros c hc. rewrite (hc' a) by auto.
             destruct (Nat.eq_dec c b) as [->|]; [rewrite hb'; lra|].
             rewrite hc' by auto. apply hmin; auto.
          -- rewrite hsd in e2 by auto. apply emb_false with (v := v) in e2; auto.
             intros c hc hca. rewrite (hc' s) by auto.
             destruct (Nat.eq_dec c b) as [->|]; [rewrite hb'; lra|].
             rewrite hc' by auto. apply hmin; auto.
  Qed.

  Lemma do_swap_obj_own med v b j o r :
    Dg -> Emb v -> ~ In j med ->
    inr med -> o < n -> j < n -> b < length med ->
    rec2 (length med) med o r -> own (length med) med o r ->
    wk (do_swap_obj (Lt := Lt) M (set_nth med b j) b j (o, r))
       (fun p => own (length med) (set_nth med b j) o (fst p)).
  Proof.
    intros hg he hjm hin ho hj hb (a & s & ha & hs & has & [hai had] & [hsi hsd] & hmin) hown.
    assert (hc' : forall c, c <> b -> nth c (set_nth med b j) 0 = nth c med 0)
      by (intros; apply nth_set_nth_neq; auto).
    unfold do_swap_obj. destruct (o =? j) eqn:eo.
    - apply Nat.eqb_eq in eo. subst o. simpl. intros m hm e.
      destruct (Nat.eq_dec m b) as [->|]; auto. rewrite hc' in e by auto.
      exfalso. apply hjm. rewrite <- e. apply nth_In. auto.
    - apply Nat.eqb_neq in eo. rewrite get_ok by auto. cbn [bind].
      assert (G : forall m, m < length med -> nth m (set_nth med b j) 0 = o ->
                  m <> b /\ a = m /\ nltb (D o j) (dd (near r)) = false).
      { intros m hm e. destruct (Nat.eq_dec m b) as [->|hne].
        - rewrite nth_set_nth_eq in e by auto. congruence.
        - rewrite hc' in e by auto. pose proof (hown m hm e) as ho1.
          assert (a = m) as -> by congruence. split; [auto|]. split; [auto|].
          rewrite had by auto. destruct (nltb (D o j) (D o (nth m med 0))) eqn:e1; auto.
          apply emb_true with (v := v) in e1; auto.
          * pose proof (emb_pos he ho hj). rewrite e in e1. pose proof (emb_diag he ho). lra.
          * rewrite e. auto. }
      rewrite hai. cbn [ieqb].
      apply wk_bind with (P := fun q => own (length med) (set_nth med b j) o q).
      2: { intros q hq. simpl. auto. }
      destruct (a =? b) eqn:eab.
      + apply Nat.eqb_eq in eab. subst a.
        assert (G' : forall q, own (length med) (set_nth med b j) o q).
        { intros q m hm e. destruct (G m hm e) as (g1 & g2 & _). congruence. }
        destruct (nltb (D o j) (dd (seco r))); simpl; auto.
        eapply wk_bind; [apply wk_true|]. simpl. auto.
      + destruct (nltb (D o j) (dd (near r))) eqn:e1.
        { simpl. intros m hm e. destruct (G m hm e) as (g1 & g2 & g3). congruence. }
        assert (G' : forall x, own (length med) (set_nth med b j) o (mkRec (near r) x)).
        { intros x m hm e. destruct (G m hm e) as (g1 & g2 & _). simpl. congruence. }
        destruct (nltb (D o j) (dd (seco r))); [simpl; auto|].
        destruct (ieqb (di (seco r)) b).
        * eapply wk_bind; [apply wk_true|]. simpl. auto.
        * simpl. intros m hm e. destruct (G m hm e) as (g1 & g2 & _). simpl. congruence.
  Qed.

  Lemma NoDup_set_nth (med : list nat) b j :
    NoDup med -> ~ In j med -> NoDup (set_nth med b j).
  Proof.
    revert b. induction med as [|m med IH]; intros b hnd hj; simpl; [constructor|].
    inversion hnd; subst. destruct b.
    - constructor; auto. intros h. apply hj. simpl. auto.
    - constructor.
      + intros h. apply set_nth_In in h as [->|h]; [apply hj; simpl; auto|tauto].
      + apply IH; auto. intros h. apply hj. simpl. auto.
  Qed.

  (** the loss computed by do_swap: 0 for the new medoid, the cached distance for the others *)
  Definition near_sum0 (j : nat) (data : list (Rec Nt)) : option Lt :=
    reduce ladd (map (fun '(o, r) => if o =? j then lzero else lfrom (dd (near r))) (enum data)).

  Lemma do_swap_ok med data b j :
    1 <= n -> inr med -> j < n -> b < length med -> data_ok med data ->
    oks (do_swap (Lt := Lt) M med data b j)
        (fun '(med', data', loss') =>
           med' = set_nth med b j /\ data_ok med' data' /\ near_sum0 j data' = Some loss' /\
           (forall r, nth_error data' j = Some r -> near r = DP (Some b) nzero) /\
           (forall v, Dg -> Emb v -> ~ In j med -> data_own med data -> data_own med' data')).
  Proof.
    intros hn hin hj hb [hlen hdata]. unfold do_swap.
    apply Nat.ltb_lt in hb as hb0. rewrite hb0. cbn [bind assertb].
    rewrite len_n. apply Nat.ltb_lt in hj as hj0. rewrite hj0. cbn [bind assertb].
    rewrite upd_ok by auto. cbn [bind].
    eapply oks_bind.
    { apply mapM_enum with (R := fun o r (p : Rec Nt * Lt) =>
        (rec2 (length med) (set_nth med b j) o (fst p) /\
         snd p = (if o =? j then lzero else lfrom (dd (near (fst p)))) /\
         (o = j -> near (fst p) = DP (Some b) nzero)) /\
        (forall v, Dg -> Emb v -> ~ In j med -> own (length med) med o r ->
           own (length med) (set_nth med b j) o (fst p))).
      intros o r hr.
      assert (ho : o < n) by (rewrite <- hlen; apply nth_error_lt with (1 := hr)).
      pose proof (do_swap_obj_ok hin ho hj hb (hdata o r hr)) as h1.
      apply oks_inv in h1 as (p & e & h1).
      apply oks_intro with (1 := e). split; auto.
      intros v hg he hjm hown.
      pose proof (do_swap_obj_own hg he hjm hin ho hj hb (hdata o r hr) hown) as h2.
      rewrite e in h2. exact h2. }
    intros rs [hl hr].
    assert (hr' : forall o p, nth_error rs o = Some p ->
              exists r, nth_error data o = Some r).
    { intros o p hp. apply nth_error_ex. rewrite <- hl. apply nth_error_lt with (1 := hp). }
    assert (e : map snd rs =
                map (fun '(o, r) => if o =? j then lzero else lfrom (dd (near r)))
                    (enum (map fst rs))).
    { apply nth_ext with (d := lzero) (d' := lzero).
      - rewrite !map_length, length_enum, map_length. auto.
      - intros o ho. rewrite map_length in ho.
        destruct (nth_error_ex rs ho) as [p hp].
        destruct (hr' o p hp) as [r hr0]. destruct (hr o r p hr0 hp) as [(_ & h & _) _].
        rewrite nth_error_nth with (x := snd p); [|rewrite nth_error_map, hp; auto].
        symmetry. apply nth_error_nth.
        rewrite nth_error_map, nth_error_enum, nth_error_map, hp. simpl. congruence. }
    rewrite e. unfold near_sum0.
    match goal with |- context [reduce ladd ?l] => destruct (reduce_some ladd (l := l)) as [x hx] end.
    { intros h. apply (f_equal (@length _)) in h. rewrite map_length, length_enum, map_length in h.
      simpl in h. lia. }
    rewrite hx. simpl. split; [auto|]. split; [|split; [|split]].
    - split; [rewrite map_length; lia|]. rewrite length_set_nth.
      intros o r h. rewrite nth_error_map in h. destruct (nth_error rs o) eqn:eo; [|discriminate].
      simpl in h. injection h as <-. destruct (hr' _ _ eo) as [r0 h0]. apply (hr _ _ _ h0 eo).
    - auto.
    - intros r h. rewrite nth_error_map in h. destruct (nth_error rs j) eqn:eo; [|discriminate].
      simpl in h. injection h as <-. destruct (hr' _ _ eo) as [r0 h0]. apply (hr _ _ _ h0 eo). auto.
    - intros v hg he hjm hown o r h. rewrite nth_error_map in h.
      destruct (nth_error rs o) eqn:eo; [|discriminate].
      simpl in h. injection h as <-. destruct (hr' _ _ eo) as [r0 h0].
      rewrite length_set_nth. eapply (hr _ _ _ h0 eo); eauto.
  Qed.

  Lemma near_sum0_near_sum j (data : list (Rec Nt)) :
    lfrom nzero = lzero ->
    (forall r, nth_error data j = Some r -> dd (near r) = nzero) ->
    near_sum0 j data = near_sum data.
  Proof.
    intros hz hj. unfold near_sum0, near_sum. f_equal.
    rewrite <- (map_snd_enum data) at 2. rewrite map_map. apply map_ext_in.
    intros [o r] hin. apply In_enum in hin. simpl.
    destruct (o =? j) eqn:e; auto. apply Nat.eqb_eq in e. subst o.
    rewrite (hj _ hin). auto.
  Qed.

  (** ** update_removal_loss, find_best_swap: lengths and indices *)
  Lemma add_at_ok (l : list Lt) i x :
    i < length l -> add_at l i x = Ok (set_nth l i (ladd (nth i l lzero) x)).
  Proof.
    intros h. unfold add_at. rewrite idx_nth with (d := lzero) by auto. cbn [bind].
    apply upd_ok. auto.
  Qed.

  Lemma rec2_near t med o r : rec2 t med o r -> exists a, di (near r) = Some a /\ a < t.
  Proof. intros (a & b & h1 & _ & _ & [h2 _] & _). eauto. Qed.

  Lemma data_near med data r : data_ok med data -> In r data ->
    as_usize (di (near r)) < length med.
  Proof.
    intros [_ h] hr. apply In_nth_error in hr as [o hr]. apply h in hr.
    apply rec2_near in hr as (a & -> & ha). auto.
  Qed.

  Lemma update_removal_loss_len med data (rl : list Lt) :
    data_ok med data -> length rl = length med ->
    oks (update_removal_loss data rl) (fun rl' => length rl' = length med).
  Proof.
    intros hd hl. unfold update_removal_loss. apply foldM_inv.
    - rewrite repeat_length. auto.
    - intros r s hr hs. rewrite add_at_ok by (rewrite hs; eapply data_near; eauto).
      simpl. rewrite length_set_nth. auto.
  Qed.

  Lemma find_min_idx (l : list Lt) : l <> [] ->
    oks (find_min l) (fun p => fst p < length l /\ snd p = nth (fst p) l lzero).
  Proof.
    destruct l as [|x xs]; [congruence|]. intros _. simpl find_min.
    assert (G : forall ys s best, 
      (forall i y, nth_error ys i = Some y -> nth_error (x :: xs) (s + i) = Some y) ->
      (fst best < length (x :: xs) /\ snd best = nth (fst best) (x :: xs) lzero) ->
      let p := fold_left (fun (best : nat * Lt) '(ik, iv) =>
                            if lltb iv (snd best) then (ik, iv) else best)
                         (combine (seq s (length ys)) ys) best in
      fst p < length (x :: xs) /\ snd p = nth (fst p) (x :: xs) lzero).
    { induction ys as [|y ys IH]; intros s best hys hb; auto.
      cbn [length seq combine fold_left]. apply IH.
      - intros i z hz. specialize (hys (S i) z hz). rewrite <- hys. f_equal. lia.
      - destruct (lltb y (snd best)); auto. simpl fst. simpl snd.
        assert (e : nth_error (x :: xs) s = Some y).
        { specialize (hys 0 y eq_refl). rewrite Nat.add_0_r in hys. auto. }
        split; [apply nth_error_lt with (1 := e)|]. symmetry. apply nth_error_nth. auto. }
    apply G; [intros i y h; exact h|]. simpl. split; auto. lia.
  Qed.

  Lemma find_best_swap_idx med data (rl : list Lt) j :
    data_ok med data -> length rl = length med -> 1 <= length med -> j < n ->
    oks (find_best_swap M rl data j) (fun p => snd p < length med).
  Proof.
    intros [hn hd] hl hk hj. unfold find_best_swap.
    eapply oks_bind.
    - apply foldM_enum with (I := fun _ (st : list Lt * Lt) => length (fst st) = length med).
      + auto.
      + intros o r [pl acc] hr hlp. simpl in hlp.
        assert (ho : o < n) by (rewrite <- hn; apply nth_error_lt with (1 := hr)).
        destruct (rec2_near (hd o r hr)) as (a & ea & ha).
        unfold fbs_step. rewrite get_ok by auto. cbn [bind]. rewrite ea. cbn [as_usize].
        destruct (nltb (D o j) (dd (near r))); [|destruct (nltb (D o j) (dd (seco r)))]; auto.
        all: rewrite add_at_ok by lia; simpl; rewrite length_set_nth; auto.
    - intros [pl acc] hlp. simpl in hlp. 
      eapply oks_bind; [apply find_min_idx; intros ->; simpl in hlp; lia|].
      intros [b bl] [hb _]. simpl in *. lia.
  Qed.

  (** ** the candidate loop *)
  Record fp_inv (k : nat) (st : fpst Nt Lt) : Prop := {
    fi_len : length (fp_med st) = k;
    fi_inr : inr (fp_med st);
    fi_data : data_ok (fp_med st) (fp_data st);
    fi_rl : length (fp_rl st) = k
  }.

  (** what happens to a state when candidate [j] is considered *)
  Inductive cand_step (st : fpst Nt Lt) (j : nat) : ctl (fpst Nt Lt) -> Prop :=
  | cs_break : j = fp_last st -> cand_step st j (Break st)
  | cs_medoid r a : j <> fp_last st -> nth_error (fp_data st) j = Some r -> di (near r) = Some a ->
      nth a (fp_med st) 0 = j -> cand_step st j (Next st)
  | cs_worse change b : j <> fp_last st ->
      find_best_swap M (fp_rl st) (fp_data st) j = Ok (change, b) -> lleb lzero change = true ->
      cand_step st j (Next st)
  | cs_swap r a change b data' rl' loss' :
      j <> fp_last st -> nth_error (fp_data st) j = Some r -> di (near r) = Some a ->
      nth a (fp_med st) 0 <> j ->
      find_best_swap M (fp_rl st) (fp_data st) j = Ok (change, b) -> lleb lzero change = false ->
      b < length (fp_med st) ->
      do_swap M (fp_med st) (fp_data st) b j = Ok (set_nth (fp_med st) b j, data', loss') ->
      update_removal_loss data' (fp_rl st) = Ok rl' ->
      cand_step st j (Next (mkFp (set_nth (fp_med st) b j) data' rl' loss' j (S (fp_swaps st)) (fp_iter st))).

  Lemma fp_inv_swap k st b j data' rl' loss' it sw la :
    1 <= n -> 1 <= k -> j < n -> fp_inv k st -> b < length (fp_med st) ->
    do_swap M (fp_med st) (fp_data st) b j = Ok (set_nth (fp_med st) b j, data', loss') ->
    update_removal_loss data' (fp_rl st) = Ok rl' ->
    fp_inv k (mkFp (set_nth (fp_med st) b j) data' rl' loss' la sw it).
  Proof.
    intros hn hk hj [h1 h2 h3 h4] hb e1 e2.
    pose proof (do_swap_ok hn h2 hj hb h3) as h. apply oks_elim with (1 := h) in e1.
    destruct e1 as (_ & hd & _). constructor; simpl.
    - rewrite length_set_nth. auto.
    - apply inr_set_nth; auto.
    - auto.
    - assert (hl : length (fp_rl st) = length (set_nth (fp_med st) b j)).
      { rewrite length_set_nth. congruence. }
      pose proof (update_removal_loss_len (fp_rl st) hd hl) as h5.
      apply oks_elim with (1 := h5) in e2. rewrite e2, length_set_nth. auto.
  Qed.

  Lemma fp_cand_ok k st j :
    1 <= n -> 1 <= k -> j < n -> fp_inv k st ->
    oks (fp_cand M st j) (cand_step st j).
  Proof.
    intros hn hk hj hi. pose proof hi as [h1 h2 h3 h4].
    unfold fp_cand. destruct (j =? fp_last st) eqn:el.
    { apply Nat.eqb_eq in el. apply cs_break. auto. }
    apply Nat.eqb_neq in el.
    destruct (nth_error_ex (fp_data st) (i := j)) as [r hr]; [destruct h3; lia|].
    rewrite (idx_some _ _ hr). cbn [bind].
    destruct (rec2_near (proj2 h3 j r hr)) as (a & ea & ha).
    rewrite ea. cbn [as_usize]. rewrite idx_nth with (d := 0) by auto. cbn [bind].
    destruct (j =? nth a (fp_med st) 0) eqn:em.
    { apply Nat.eqb_eq in em. eapply cs_medoid; eauto. }
    apply Nat.eqb_neq in em.
    assert (hf : oks (find_best_swap M (fp_rl st) (fp_data st) j)
                     (fun p => snd p < length (fp_med st)))
      by (apply find_best_swap_idx; auto; lia).
    apply oks_inv in hf as ([change b] & ef & hb). simpl in hb.
    rewrite ef. cbn [bind]. destruct (lleb lzero change) eqn:ec.
    { eapply cs_worse; eauto. }
    pose proof (do_swap_ok hn h2 hj hb h3) as hs. apply oks_inv in hs as ([[med' data'] loss'] & es & hs).
    rewrite es. cbn [bind]. destruct hs as (-> & hd & _).
    assert (hl : length (fp_rl st) = length (set_nth (fp_med st) b j)).
    { rewrite length_set_nth. congruence. }
    pose proof (update_removal_loss_len (fp_rl st) hd hl) as h5.
    apply oks_inv in h5 as (rl' & er & _). rewrite er. cbn [bind].
    simpl. eapply cs_swap; eauto.
  Qed.

  Lemma cand_step_inv k st j c :
    1 <= n -> 1 <= k -> j < n -> fp_inv k st -> cand_step st j c ->
    fp_inv k (match c with Next s => s | Break s => s end).
  Proof.
    intros hn hk hj hi hc. destruct hc; auto. eapply fp_inv_swap; eauto.
  Qed.

  (** induction over a whole run of [fasterpam_order] with an invariant closed under [cand_step] *)
  Lemma fp_run_inv (order : list nat) k maxiter st0 (I : fpst Nt Lt -> Prop) :
    1 <= n -> 1 <= k -> (forall j, In j order -> j < n) ->
    fp_inv k st0 -> I st0 ->
    (forall st it, I st -> I (mkFp (fp_med st) (fp_data st) (fp_rl st) (fp_loss st) (fp_last st)
                                  (fp_swaps st) it)) ->
    (forall st j s, fp_inv k st -> j < n -> I st -> cand_step st j (Next s) -> I s) ->
    oks (whileM maxiter (fp_iteration M order) st0) (fun st => fp_inv k st /\ I st).
  Proof.
    intros hn hk ho hi0 h0 hit hst. apply whileM_inv; auto.
    intros st [hi h]. unfold fp_iteration.
    eapply oks_bind.
    - apply forM_inv with (I := fun st => fp_inv k st /\ I st).
      + split; [|apply hit; auto]. destruct hi. constructor; auto.
      + intros j s hj [his hs]. pose proof (ho j hj) as hjn.
        eapply oks_mono; [apply fp_cand_ok with (k := k); auto|].
        intros [s'|s'] hc; pose proof (cand_step_inv hn hk hjn his hc) as hc'; (split; [exact hc'|]).
        * apply hst with (st := s) (j := j); auto.
        * inversion hc; subst; auto.
    - intros st' h'. destruct (_ || _); simpl; auto.
  Qed.

  (** counters *)
  Lemma fp_run_count (order : list nat) k maxiter st0 :
    1 <= n -> 1 <= k -> (forall j, In j order -> j < n) ->
    fp_inv k st0 -> fp_swaps st0 = 0 -> fp_iter st0 = 0 ->
    oks (whileM maxiter (fp_iteration M order) st0)
        (fun st => fp_iter st <= maxiter /\ fp_swaps st <= length order * fp_iter st).
  Proof.
    intros hn hk ho hi0 e1 e2.
    apply whileM_oks with
      (I := fun i st => fp_inv k st /\ fp_iter st = i /\ fp_swaps st <= length order * i).
    - rewrite e1, e2. auto with arith.
    - intros i st hlt (hi & hit & hsw). unfold fp_iteration.
      eapply oks_bind with (P := fun st' => fp_inv k st' /\ fp_iter st' = S i /\
                                   fp_swaps st' <= length order * i + length order).
      + apply forM_oks with (I := fun pre st' => fp_inv k st' /\ fp_iter st' = S i /\
                                   fp_swaps st' <= length order * i + length pre).
        * split; [destruct hi; constructor; auto|]. simpl. split; lia.
        * intros pre j post s e (his & hsi & hss).
          assert (hjn : j < n) by (apply ho; rewrite e; apply in_or_app; simpl; auto).
          assert (hle : length pre <= length order) by (rewrite e, app_length; lia).
          eapply oks_mono; [apply fp_cand_ok with (k := k); auto|].
          intros [s'|s'] hc; pose proof (cand_step_inv hn hk hjn his hc) as hc';
            (split; [exact hc'|]); rewrite ?app_length; simpl;
            inversion hc; subst; simpl; rewrite ?H; split; auto; try lia.
        * intros s (h1 & h2 & h3). auto.
      + intros st' (h1 & h2 & h3).
        destruct (_ || _); cbn [oks].
        * rewrite h2. split; lia.
        * split; auto. split; auto. lia.
    - intros st (h1 & h2 & h3). rewrite h2. auto.
  Qed.
End Shape.
