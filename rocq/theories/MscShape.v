(** MscShape.v -- invariants of the cached three nearest medoids (fastermsc.rs), without any
    assumption on the arithmetic.

    The guards [Dg] and [Emb v] are those of PamShape.v.  The additional guard [X] allows the same
    lemmas to be used after dynmsc.rs has removed a medoid, when the order of the cached medoids is
    no longer guaranteed ([X] is then [False]). *)
From Coq Require Import ZArith QArith Lqa Lia.
From Verif Require Import Base Num M_Mat M_Util M_Fasterpam M_Silhouette M_Msc Hoare Spec SpecFacts
  Laws PamShape.
Set Implicit Arguments.
Open Scope nat_scope.

Section Shape.
  Context {Nt Lt : Type} `{HNN : NumN Nt} `{HNL : NumL Lt} `{HFN : FromN Nt Lt}.
  Variable M : Mat Nt.
  Variable n : nat.
  Variable D : nat -> nat -> Nt.
  Hypothesis HM : is_matrix M n D.
  Variable X : Prop.

  Local Notation Dg := (Dg n D).
  Local Notation Emb := (Emb n D).
  Local Notation inr := (inr n).
  Local Notation dp_is := (dp_is n D).

  Definition third_min (v : diss) (med : list nat) (o t a b c : nat) : Prop :=
    forall x, x < t -> x <> a -> x <> b -> (v o (nth c med 0%nat) <= v o (nth x med 0%nat))%Q.

  (** [p] is the cached third medoid next to [a] and [b]; there is none among two medoids *)
  Definition th3 (t : nat) (med : list nat) (o a b : nat) (p : dpair Nt) : Prop :=
    (t = 2 /\ p = DP None nzero) \/
    (3 <= t /\ exists c, c < t /\ c <> a /\ c <> b /\ dp_is med o p c /\
       (X -> Dg -> forall v, Emb v -> third_min v med o t a b c)).

  (** the record of object [o] after looking at the first [t >= 2] medoids *)
  Definition rec3 (t : nat) (med : list nat) (o : nat) (r : Reco Nt) : Prop :=
    exists a b, a < t /\ b < t /\ a <> b /\ dp_is med o (near3 r) a /\ dp_is med o (seco3 r) b /\
      (X -> Dg -> forall v, Emb v -> two_min v med o t a b) /\ th3 t med o a b (third3 r).

  Definition rect3 (t : nat) (med : list nat) (o : nat) (r : Reco Nt) : Prop :=
    (t = 1 /\ dp_is med o (near3 r) 0 /\ seco3 r = DP None nzero /\ third3 r = DP None nzero) \/
    (2 <= t /\ rec3 t med o r).

  (** an object which is a medoid is assigned to itself *)
  Definition own3 (t : nat) (med : list nat) (o : nat) (r : Reco Nt) : Prop :=
    forall m, m < t -> nth m med 0 = o -> di (near3 r) = Some m.

  Definition data3_ok (med : list nat) (data : list (Reco Nt)) : Prop :=
    length data = n /\
    forall o r, nth_error data o = Some r -> rec3 (length med) med o r.

  Definition data3_own (med : list nat) (data : list (Reco Nt)) : Prop :=
    forall o r, nth_error data o = Some r -> own3 (length med) med o r.

  Ltac spl3 := repeat match goal with
    | |- _ /\ _ => split
    | |- PamShape.dp_is _ _ _ _ _ _ => split
    | |- X -> Dg -> forall v, Emb v -> _ => intros Hx Hg v He
    | |- two_min _ _ _ _ _ _ => split
    | |- third_min _ _ _ _ _ _ _ => unfold third_min
    end.

  (** ** initial_assignment *)
  Lemma ia3_step_ok med o t me r :
    inr med -> o < n -> 1 <= t -> nth_error med t = Some me -> rect3 t med o r ->
    oks (ia3_step M o r (t, me)) (rec3 (S t) med o).
  Proof.
    intros hin ho ht hme hr.
    pose proof (nth_error_nth _ _ 0 hme) as enth.
    pose proof (nth_error_lt _ _ hme) as hlt.
    assert (hmn : me < n) by (apply hin; apply nth_error_In with (1 := hme)).
    simpl. rewrite (get_ok HM) by auto. simpl.
    destruct hr as [(-> & [hi hd] & hs & ht3)|[ht2 (a & b & ha & hb & hab & [hai had] & [hbi hbd] & hmin & h3)]].
    - (* one medoid so far *)
      rewrite hs, ht3. simpl.
      assert (hn0 : nth 0 med 0 < n) by (apply inr_nth; auto; lia).
      destruct (nltb (D o me) (dd (near3 r)) || (o =? me)) eqn:e; simpl.
      + exists 1, 0. spl3; cbn [near3 seco3 third3 di dd]; auto; try congruence; try lia.
        3: { left. auto. }
        all: intros x hx; try (match goal with |- _ <> _ -> _ => intros hx1 end).
        * assert (x = 0 \/ x = 1) as [->| ->] by lia; [|lra]. rewrite enth.
          apply orb_true_iff in e as [e|e].
          -- rewrite hd in e by auto. eapply emb_true in e; eauto. lra.
          -- apply Nat.eqb_eq in e. rewrite <- e, (emb_diag He ho). eapply emb_pos; eauto.
        * assert (x = 0) as -> by lia. lra.
      + apply orb_false_iff in e as [e _].
        exists 0, 1. spl3; cbn [near3 seco3 third3 di dd]; auto; try congruence; try lia.
        3: { left. auto. }
        all: intros x hx; try (match goal with |- _ <> _ -> _ => intros hx1 end).
        * assert (x = 0 \/ x = 1) as [->| ->] by lia; [lra|]. rewrite enth.
          rewrite hd in e by auto. eapply emb_false in e; eauto.
        * assert (x = 1) as -> by lia. lra.
    - assert (hna : nth a med 0 < n) by (apply inr_nth; auto; lia).
      assert (hnb : nth b med 0 < n) by (apply inr_nth; auto; lia).
      rewrite hbi. simpl.
      destruct (nltb (D o me) (dd (near3 r)) || (o =? me)) eqn:e; simpl.
      + (* new nearest *)
        assert (hw : Dg -> forall v, Emb v -> (v o (nth t med 0%nat) <= v o (nth a med 0%nat))%Q).
        { intros Hg v He. rewrite enth. apply orb_true_iff in e as [e|e].
          - rewrite had in e by auto. eapply emb_true in e; eauto. lra.
          - apply Nat.eqb_eq in e. rewrite <- e, (emb_diag He ho). eapply emb_pos; eauto. }
        exists t, a. spl3; cbn [near3 seco3 third3 di dd]; auto; try congruence; try lia.
        3: { right. split; [lia|]. exists b. spl3; auto; try lia.
             intros x hx h1 h2. destruct (hmin Hx Hg v He) as [m1 m2]. apply m2; lia. }
        all: intros x hx; try (match goal with |- _ <> _ -> _ => intros hx1 end).
        all: destruct (hmin Hx Hg v He) as [m1 m2]; specialize (hw Hg v He).
        * destruct (Nat.eq_dec x t) as [->|]; [lra|]. specialize (m1 x ltac:(lia)). lra.
        * apply m1. lia.
      + apply orb_false_iff in e as [e _].
        destruct (nltb (D o me) (dd (seco3 r))) eqn:e2; simpl.
        * (* new second *)
          exists a, t. spl3; cbn [near3 seco3 third3 di dd]; auto; try congruence; try lia.
          3: { right. split; [lia|]. exists b. spl3; auto; try lia.
               intros x hx h1 h2. destruct (hmin Hx Hg v He) as [m1 m2]. apply m2; lia. }
          all: intros x hx; try (match goal with |- _ <> _ -> _ => intros hx1 end).
          all: destruct (hmin Hx Hg v He) as [m1 m2].
          -- destruct (Nat.eq_dec x t) as [->|]; [|apply m1; lia]. rewrite enth.
             rewrite had in e by auto. eapply emb_false in e; eauto.
          -- destruct (Nat.eq_dec x t) as [->|]; [lra|]. rewrite enth.
             rewrite hbd in e2 by auto. eapply emb_true in e2; eauto.
             specialize (m2 x ltac:(lia) hx1). lra.
        * assert (h12 : X -> Dg -> forall v, Emb v -> two_min v med o (S t) a b).
          { intros Hx Hg v He. destruct (hmin Hx Hg v He) as [m1 m2]. split; intros x hx.
            - destruct (Nat.eq_dec x t) as [->|]; [|apply m1; lia]. rewrite enth.
              rewrite had in e by auto. eapply emb_false in e; eauto.
            - intros hx1. destruct (Nat.eq_dec x t) as [->|]; [|apply m2; auto; lia]. rewrite enth.
              rewrite hbd in e2 by auto. eapply emb_false in e2; eauto. }
          destruct h3 as [[-> ht3]|[h3t (c & hc & hca & hcb & [hci hcd] & hc3)]].
          -- rewrite ht3. simpl.
             exists a, b. cbn [near3 seco3 third3]. repeat (split; [first [lia|exact h12|split; auto]|]).
             right. split; [lia|]. exists 2.
             spl3; cbn [di dd]; auto; try lia; try congruence.
             intros x hx h1 h2. assert (x = 2) as -> by lia. lra.
          -- rewrite hci. simpl.
             assert (hnc : nth c med 0 < n) by (apply inr_nth; auto; lia).
             destruct (nltb (D o me) (dd (third3 r))) eqn:e3; simpl.
             ++ exists a, b. cbn [near3 seco3 third3]. repeat (split; [first [lia|exact h12|split; auto]|]).
                right. split; [lia|]. exists t.
                spl3; cbn [di dd]; auto; try lia; try congruence.
                intros x hx h1 h2. destruct (Nat.eq_dec x t) as [->|]; [lra|]. rewrite enth.
                rewrite hcd in e3 by auto. eapply emb_true in e3; eauto.
                specialize (hc3 Hx Hg v He x ltac:(lia) h1 h2). lra.
             ++ exists a, b. repeat (split; [first [lia|exact h12|split; auto]|]).
                right. split; [lia|]. exists c.
                spl3; cbn [di dd]; auto; try lia; try congruence.
                intros x hx h1 h2. destruct (Nat.eq_dec x t) as [->|]; [|apply hc3; auto; lia].
                rewrite enth. rewrite hcd in e3 by auto. eapply emb_false in e3; eauto.
  Qed.

  Lemma rect3_one o med d : d = D o (nth 0 med 0) ->
    rect3 1 med o (mkReco (DP (Some 0) d) (DP None nzero) (DP None nzero)).
  Proof. intros ->. left. repeat split. Qed.

  Lemma ia3_obj_ok med o :
    inr med -> o < n -> 2 <= length med ->
    oks (ia3_obj (Lt := Lt) M med (nth 0 med 0) o)
        (fun p => snd p = ratio (dd (near3 (fst p))) (dd (seco3 (fst p))) /\
                  rec3 (length med) med o (fst p)).
  Proof.
    intros hin ho hk. unfold ia3_obj.
    rewrite (get_ok HM); auto; [|apply inr_nth; auto; lia]. cbn [bind].
    eapply oks_bind.
    - apply foldM_enum_from with (I := fun t r => rect3 t med o r); [lia| |].
      + apply rect3_one. auto.
      + intros t me r ht hme hr. eapply oks_mono; [apply ia3_step_ok; eauto|].
        intros r' hr'. right. split; auto. lia.
    - intros r [[h _]|[_ h]]; [lia|]. simpl. auto.
  Qed.

  Lemma ia3_own_step med v o t me r :
    X -> Dg -> Emb v -> NoDup med -> inr med -> o < n -> nth_error med t = Some me -> 1 <= t ->
    rect3 t med o r -> own3 t med o r ->
    oks (ia3_step M o r (t, me)) (own3 (S t) med o).
  Proof.
    intros hx hg he hnd hin ho hme ht hr hown.
    pose proof (nth_error_nth _ _ 0 hme) as enth.
    pose proof (nth_error_lt _ _ hme) as hlt.
    assert (hmn : me < n) by (apply hin; apply nth_error_In with (1 := hme)).
    assert (hinj : forall m, m < t -> nth m med 0 = o -> me <> o).
    { intros m hm e1 e2. assert (m = t); [|lia].
      apply (proj1 (NoDup_nth med 0)); auto; try lia; congruence. }
    assert (hnr : exists a, a < t /\ dp_is med o (near3 r) a).
    { destruct hr as [(-> & h & _)|[_ (a & b & h1 & _ & _ & h2 & _)]]; eauto. }
    destruct hnr as (a & ha & hai & had).
    simpl. rewrite (get_ok HM) by auto. simpl.
    intros m hm em.
    destruct (Nat.eq_dec m t) as [->|hne].
    - rewrite enth in em. subst o. rewrite Nat.eqb_refl, orb_true_r. auto.
    - assert (hm' : m < t) by lia. specialize (hown m hm' em). specialize (hinj m hm' em).
      replace (o =? me) with false by (symmetry; apply Nat.eqb_neq; auto).
      assert (a = m) as -> by congruence.
      destruct (nltb (D o me) (dd (near3 r))) eqn:e; simpl.
      + exfalso. rewrite had in e by auto. eapply emb_true with (v := v) in e; eauto.
        * pose proof (emb_pos he ho hmn). rewrite em in e. pose proof (emb_diag he ho). lra.
        * rewrite em. auto.
      + destruct (is_marker (di (seco3 r)) || nltb (D o me) (dd (seco3 r))); auto.
        destruct (is_marker (di (third3 r)) || nltb (D o me) (dd (third3 r))); auto.
  Qed.

  Lemma ia3_obj_own med v o :
    X -> Dg -> Emb v -> NoDup med -> inr med -> o < n -> 1 <= length med ->
    oks (ia3_obj (Lt := Lt) M med (nth 0 med 0) o) (fun p => own3 (length med) med o (fst p)).
  Proof.
    intros hx hg he hnd hin ho hk. unfold ia3_obj.
    rewrite (get_ok HM); auto; [|apply inr_nth; auto; lia]. cbn [bind].
    eapply oks_bind.
    - apply foldM_enum_from with (I := fun t r => rect3 t med o r /\ own3 t med o r); [lia| |].
      + split; [apply rect3_one; auto|]. intros m hm em. assert (m = 0) as -> by lia. auto.
      + intros t me r ht hme [hr hr2]. apply oks_and.
        * eapply oks_mono; [apply ia3_step_ok; eauto|].
          intros r' hr'. right. split; auto. lia.
        * eapply ia3_own_step; eauto.
    - intros r [_ h]. exact h.
  Qed.

  Definition rec_ratio (r : Reco Nt) : Lt := ratio (dd (near3 r)) (dd (seco3 r)).
  Definition ratio_sum (data : list (Reco Nt)) : option Lt := reduce ladd (map rec_ratio data).

  Lemma initial_assignment3_ok med :
    sizes n (length med) -> inr med -> 2 <= length med ->
    oks (initial_assignment3 (Lt := Lt) M med)
        (fun p => data3_ok med (snd p) /\ ratio_sum (snd p) = Some (fst p) /\
                  (forall v, X -> Dg -> Emb v -> NoDup med -> data3_own med (snd p))).
  Proof.
    intros hs hin hk. unfold initial_assignment3. rewrite (check_input_ok HM) by auto. cbn [bind].
    rewrite idx_nth with (d := 0) by lia. cbn [bind]. rewrite (len_n HM).
    eapply oks_bind.
    { apply mapM_seq with (R := fun o (p : Reco Nt * Lt) =>
        (snd p = rec_ratio (fst p) /\ rec3 (length med) med o (fst p)) /\
        (forall v, X -> Dg -> Emb v -> NoDup med -> own3 (length med) med o (fst p))).
      intros o ho. pose proof (ia3_obj_ok hin ho hk) as h1. apply oks_inv in h1 as (p & e & h1).
      apply oks_intro with (1 := e). split; auto.
      intros v hx hg he hnd.
      assert (h2 := @ia3_obj_own med v o hx hg he hnd hin ho ltac:(lia)).
      apply oks_elim with (1 := h2) in e. auto. }
    intros rs [hl hr].
    assert (e : map snd rs = map rec_ratio (map fst rs)).
    { rewrite map_map. apply map_ext_in. intros p hp. apply In_nth_error in hp as [o hp].
      apply hr in hp. apply hp. }
    rewrite e. unfold ratio_sum.
    destruct (reduce_some ladd (l := map rec_ratio (map fst rs))) as [x hx].
    { destruct rs; simpl; [|congruence]. simpl in hl. destruct hs as (h1 & _). lia. }
    rewrite hx. simpl. rewrite hx. split; [split|split]; auto.
    - rewrite map_length. auto.
    - intros o r h. rewrite nth_error_map in h. destruct (nth_error rs o) eqn:eo; [|discriminate].
      simpl in h. injection h as <-. apply hr in eo. apply eo.
    - intros v hx' hg he hnd o r h. rewrite nth_error_map in h.
      destruct (nth_error rs o) eqn:eo; [|discriminate].
      simpl in h. injection h as <-. apply hr in eo. eapply eo; eauto.
  Qed.

  (** ** update_third_nearest *)
  Lemma update_third_nearest_ok med p q b o :
    inr med -> o < n -> b <> p -> b <> q -> b < length med ->
    oks (update_third_nearest M med p q b o (D o (nth b med 0)))
        (fun s => exists c, c < length med /\ c <> p /\ c <> q /\ di s = Some c /\
           dd s = D o (nth c med 0) /\
           forall v, Emb v -> forall x, x < length med -> x <> p -> x <> q ->
             (v o (nth c med 0%nat) <= v o (nth x med 0%nat))%Q).
  Proof.
    intros hin ho hbp hbq hb. unfold update_third_nearest.
    eapply oks_mono.
    - apply foldM_enum with (I := fun t (s : dpair Nt) =>
        exists c, c < length med /\ c <> p /\ c <> q /\ di s = Some c /\ dd s = D o (nth c med 0) /\
           forall v, Emb v -> forall x, (x < t \/ x = b) -> x <> p -> x <> q ->
             (v o (nth c med 0%nat) <= v o (nth x med 0%nat))%Q).
      + exists b. cbn [di dd]. repeat (split; [auto|]).
        intros v he x [h|h] _ _; [lia|]. subst. lra.
      + intros t me s hme (c & hc & hcp & hcq & hi & hd & hmin).
        pose proof (nth_error_nth _ _ 0 hme) as enth.
        pose proof (nth_error_lt _ _ hme) as hlt.
        destruct ((t =? p) || (t =? b) || (t =? q)) eqn:e.
        * exists c. repeat (split; [auto|]).
          intros v he x h hne1 hne2. apply hmin; auto.
          apply orb_true_iff in e as [e|e]; [apply orb_true_iff in e as [e|e]|];
            apply Nat.eqb_eq in e; lia.
        * apply orb_false_iff in e as [e e3]. apply orb_false_iff in e as [e1 e2].
          apply Nat.eqb_neq in e1, e2, e3.
          assert (hmn : me < n) by (apply hin; apply nth_error_In with (1 := hme)).
          assert (hcn : nth c med 0 < n) by (apply inr_nth; auto).
          rewrite (get_ok HM) by auto. cbn [bind]. rewrite hd.
          destruct (nltb (D o me) (D o (nth c med 0))) eqn:e; simpl.
          -- exists t. cbn [di dd]. repeat (split; [solve [auto|congruence]|]).
             intros v he x h hne1 hne2. eapply emb_true with (v := v) in e; eauto. rewrite enth.
             destruct (Nat.eq_dec x t) as [->|]; [rewrite enth; lra|].
             specialize (hmin v he x ltac:(lia) hne1 hne2). lra.
          -- exists c. repeat (split; [auto|]).
             intros v he x h hne1 hne2. eapply emb_false with (v := v) in e; eauto.
             destruct (Nat.eq_dec x t) as [->|]; [rewrite enth; lra|].
             apply hmin; auto. lia.
    - intros s (c & h1 & h2 & h3 & h4 & h5 & h6). exists c. auto 10.
  Qed.

  (** ** do_swap *)
  Lemma do_swap3_obj_ok med b j o r :
    inr med -> o < n -> j < n -> b < length med -> 2 <= length med -> rec3 (length med) med o r ->
    oks (do_swap3_obj (Lt := Lt) M (set_nth med b j) b j (o, r))
        (fun p => rec3 (length med) (set_nth med b j) o (fst p) /\
                  snd p = (if o =? j then lzero else rec_ratio (fst p)) /\
                  (o = j -> near3 (fst p) = DP (Some b) nzero)).
  Proof.
    intros hin ho hj hb hk (a & s & ha & hs & has & [hai had] & [hsi hsd] & hmin & h3).
    set (med' := set_nth med b j).
    assert (hin' : inr med') by (apply inr_set_nth; auto).
    assert (hlen : length med' = length med) by apply length_set_nth.
    assert (hb' : nth b med' 0 = j) by (apply nth_set_nth_eq; auto).
    assert (hc' : forall c, c <> b -> nth c med' 0 = nth c med 0)
      by (intros; apply nth_set_nth_neq; auto).
    assert (hna : nth a med 0 < n) by (apply inr_nth; auto).
    assert (hns : nth s med 0 < n) by (apply inr_nth; auto).
    (* the new medoid is the object itself *)
    assert (hself : o = j -> forall v, Emb v -> forall x, x < n -> (v o j <= v o x)%Q).
    { intros -> v He x hx. rewrite (emb_diag He ho). eapply emb_pos; eauto. }
    assert (hself2 : Dg -> o = j -> D o j = nzero) by (intros hg ->; auto).
    assert (hnx : forall x, x < length med -> nth x med 0 < n) by (intros; apply inr_nth; auto).
    (* minimality of the chosen medoids *)
    Ltac fin3 :=
      let x := fresh "x" in let hx := fresh "hx" in
      intros x hx; intros;
      match goal with
      | hb' : nth ?b ?med' 0 = _, hc' : forall c, c <> ?b -> nth c ?med' 0 = _ |- _ =>
          destruct (Nat.eq_dec x b) as [?|?]; [subst x|]; rewrite ?hb'; rewrite ?hc' by lia
      end;
      repeat match goal with
      | h : forall y, y < _ -> (_ <= _)%Q |- _ =>
          first [pose proof (h x ltac:(lia))|idtac]; revert h
      | h : forall y, y < _ -> y <> _ -> (_ <= _)%Q |- _ =>
          first [pose proof (h x ltac:(lia) ltac:(lia))|idtac]; revert h
      | h : forall y, y < _ -> y <> _ -> y <> _ -> (_ <= _)%Q |- _ =>
          first [pose proof (h x ltac:(lia) ltac:(lia) ltac:(lia))|idtac]; revert h
      end; intros; first [lra|lia].
    destruct h3 as [[e2 ht3]|[hk3 (c & hc & hca & hcs & [hci hcd] & hc3)]].
    - (* two medoids *)
      assert (hab : a = b \/ s = b) by lia.
      unfold do_swap3_obj. rewrite hai, hsi, ht3. cbn [ieqb as_usize di is_marker orb].
      destruct (o =? j) eqn:eo.
      + apply Nat.eqb_eq in eo. cbn [oks fst snd]. 
        destruct (a =? b) eqn:eab; cbn [negb].
        * apply Nat.eqb_eq in eab. subst a. split; [|auto].
          exists b, s. spl3; cbn [near3 seco3 third3 di dd]; auto; try lia.
          -- intros hg. rewrite hb'. symmetry. auto.
          -- rewrite hc' by auto. auto.
          -- specialize (hself eo v He). intros x hx. rewrite hb'. apply hself. apply inr_nth; auto. lia.
          -- intros x hx hxb. rewrite !hc' by auto. apply (hmin Hx Hg v He); auto.
          -- left. auto.
        * apply Nat.eqb_neq in eab. assert (s = b) as -> by lia.
          rewrite Nat.eqb_refl. cbn [negb]. split; [|auto].
          exists b, a. spl3; cbn [near3 seco3 third3 di dd]; auto; try lia.
          -- intros hg. rewrite hb'. symmetry. auto.
          -- rewrite hc' by auto. auto.
          -- specialize (hself eo v He). intros x hx. rewrite hb'. apply hself. apply inr_nth; auto. lia.
          -- intros x hx hxb. rewrite !hc' by auto. apply (hmin Hx Hg v He); auto.
          -- left. auto.
      + assert (eo' : o <> j) by (apply Nat.eqb_neq; auto).
        rewrite (get_ok HM) by auto. cbn [bind].
        destruct (a =? b) eqn:eab; [apply Nat.eqb_eq in eab; subst a|apply Nat.eqb_neq in eab].
        * destruct (nltb (D o j) (dd (seco3 r))) eqn:e1; cbn [bind oks fst snd];
            (split; [|split; [auto|intros; congruence]]).
          -- exists b, s. spl3; cbn [near3 seco3 third3 di dd]; auto; try lia.
             ++ rewrite hc' by auto. auto.
             ++ rewrite hsd in e1 by auto. eapply emb_true in e1; eauto.
                destruct (hmin Hx Hg v He) as [m1 m2]. fin3.
             ++ destruct (hmin Hx Hg v He) as [m1 m2]. fin3.
             ++ left. auto.
          -- exists s, b. spl3; cbn [near3 seco3 third3 di dd]; auto; try lia.
             ++ rewrite hc' by auto. auto.
             ++ rewrite hsd in e1 by auto. eapply emb_false in e1; eauto.
                destruct (hmin Hx Hg v He) as [m1 m2]. fin3.
             ++ fin3.
             ++ left. auto.
        * assert (s = b) as -> by lia. rewrite Nat.eqb_refl.
          destruct (nltb (D o j) (dd (near3 r))) eqn:e1; cbn [bind oks fst snd];
            (split; [|split; [auto|intros; congruence]]).
          -- exists b, a. spl3; cbn [near3 seco3 third3 di dd]; auto; try lia.
             ++ rewrite hc' by auto. auto.
             ++ rewrite had in e1 by auto. eapply emb_true in e1; eauto.
                destruct (hmin Hx Hg v He) as [m1 m2]. fin3.
             ++ destruct (hmin Hx Hg v He) as [m1 m2]. fin3.
             ++ left. auto.
          -- exists a, b. spl3; cbn [near3 seco3 third3 di dd]; auto; try lia.
             ++ rewrite hc' by auto. auto.
             ++ rewrite had in e1 by auto. eapply emb_false in e1; eauto.
                destruct (hmin Hx Hg v He) as [m1 m2]. fin3.
             ++ fin3.
             ++ left. auto.
    - assert (hnc : nth c med 0 < n) by (apply inr_nth; auto).
      unfold do_swap3_obj. rewrite hai, hsi, hci. cbn [ieqb as_usize is_marker orb].
      assert (Q1 : forall bo p, p < length med ->
        nltb (D o j) (D o (nth p med 0)) = bo -> forall v, Emb v ->
        if bo then (v o j < v o (nth p med 0%nat))%Q else (v o (nth p med 0%nat) <= v o j)%Q).
      { intros bo p hp e v He. destruct bo; [eapply emb_true|eapply emb_false]; eauto. }
      assert (Qn : Dg -> forall bo, nltb (D o j) (dd (near3 r)) = bo -> forall v, Emb v ->
        if bo then (v o j < v o (nth a med 0%nat))%Q else (v o (nth a med 0%nat) <= v o j)%Q).
      { intros hg bo e. rewrite had in e by auto. eapply Q1; eauto. }
      assert (Qs : Dg -> forall bo, nltb (D o j) (dd (seco3 r)) = bo -> forall v, Emb v ->
        if bo then (v o j < v o (nth s med 0%nat))%Q else (v o (nth s med 0%nat) <= v o j)%Q).
      { intros hg bo e. rewrite hsd in e by auto. eapply Q1; eauto. }
      assert (Qt : Dg -> forall bo, nltb (D o j) (dd (third3 r)) = bo -> forall v, Emb v ->
        if bo then (v o j < v o (nth c med 0%nat))%Q else (v o (nth c med 0%nat) <= v o j)%Q).
      { intros hg bo e. rewrite hcd in e by auto. eapply Q1; eauto. }
      assert (G : forall p q t pr qr tr, p < length med -> q < length med -> t < length med ->
        p <> q -> p <> t -> q <> t -> dp_is med' o pr p -> dp_is med' o qr q -> dp_is med' o tr t ->
        (X -> Dg -> forall v, Emb v ->
           (forall x, x < length med -> (v o (nth p med' 0%nat) <= v o (nth x med' 0%nat))%Q) /\
           (forall x, x < length med -> x <> p -> (v o (nth q med' 0%nat) <= v o (nth x med' 0%nat))%Q) /\
           (forall x, x < length med -> x <> p -> x <> q ->
              (v o (nth t med' 0%nat) <= v o (nth x med' 0%nat))%Q)) ->
        rec3 (length med) med' o (mkReco pr qr tr)).
      { intros p q t pr qr tr g1 g2 g3 g4 g5 g6 g7 g8 g9 g10.
        exists p, q. cbn [near3 seco3 third3]. repeat (split; [solve [auto|lia]|]). split.
        - intros Hx Hg v He. split; apply (g10 Hx Hg v He).
        - right. split; [auto|]. exists t. repeat (split; [solve [auto|lia]|]).
          intros Hx Hg v He. unfold third_min; apply (g10 Hx Hg v He). }
      assert (Dj : forall z, (Dg -> z = D o j) -> dp_is med' o (DP (Some b) z) b).
      { intros z hz. split; [auto|]. rewrite hb'. auto. }
      assert (Da : a <> b -> dp_is med' o (near3 r) a).
      { intros h. split; auto. rewrite hc'; auto. }
      assert (Ds : s <> b -> dp_is med' o (seco3 r) s).
      { intros h. split; auto. rewrite hc'; auto. }
      assert (Dc : c <> b -> dp_is med' o (third3 r) c).
      { intros h. split; auto. rewrite hc'; auto. }
      Ltac mins hmin hc3 := 
        let Hx := fresh "Hx" in let Hg := fresh "Hg" in let v := fresh "v" in let He := fresh "He" in
        intros Hx Hg v He;
        repeat match goal with
        | q : Dg -> forall bo, true = bo -> _ |- _ => pose proof (q Hg true eq_refl v He); clear q
        | q : Dg -> forall bo, false = bo -> _ |- _ => pose proof (q Hg false eq_refl v He); clear q
        end;
        let m1 := fresh "m1" in let m2 := fresh "m2" in
        destruct (hmin Hx Hg v He) as [m1 m2]; pose proof (hc3 Hx Hg v He);
        unfold third_min in *; clear hmin hc3.
      destruct (o =? j) eqn:eo.
      + apply Nat.eqb_eq in eo. cbn [oks fst snd]. 
        assert (Hs : forall v, Emb v -> forall x, x < length med ->
                  (v o (nth b med' 0%nat) <= v o (nth x med' 0%nat))%Q).
        { intros v He x hx. rewrite hb'. apply hself; auto. apply inr_nth; auto. lia. }
        assert (Dz : dp_is med' o (DP (Some b) nzero) b) by (apply Dj; intros hg; symmetry; auto).
        destruct (a =? b) eqn:eab; cbn [negb];
          [apply Nat.eqb_eq in eab; subst a|apply Nat.eqb_neq in eab].
        * split; [|auto]. apply G with (p := b) (q := s) (t := c); auto.
          mins hmin hc3. split; [apply Hs; auto|]. split; fin3.
        * destruct (s =? b) eqn:esb; cbn [negb];
            [apply Nat.eqb_eq in esb; subst s|apply Nat.eqb_neq in esb];
            (split; [|auto]).
          -- apply G with (p := b) (q := a) (t := c); auto.
             mins hmin hc3. split; [apply Hs; auto|]. split; fin3.
          -- apply G with (p := b) (q := a) (t := s); auto.
             mins hmin hc3. split; [apply Hs; auto|]. split; fin3.
      + assert (eo' : o <> j) by (apply Nat.eqb_neq; auto).
        rewrite (get_ok HM) by auto. cbn [bind].
        assert (Dj' : dp_is med' o (DP (Some b) (D o j)) b) by (apply Dj; auto).
        assert (K : forall m, oks m (rec3 (length med) med' o) ->
          oks (x <- m ;; Ok (x, ratio (Lt := Lt) (dd (near3 x)) (dd (seco3 x)))) (fun p =>
            rec3 (length med) med' o (fst p) /\ snd p = rec_ratio (fst p) /\
            (o = j -> near3 (fst p) = DP (Some b) nzero))).
        { intros m h. eapply oks_bind; [exact h|]. intros x hx. cbn [oks fst snd].
          split; [auto|]. split; [auto|]. intros; congruence. }
        apply K. clear K.
        assert (U : forall p q, b <> p -> b <> q -> 
          oks (update_third_nearest M med' p q b o (D o j))
            (fun y => exists z, z < length med /\ z <> p /\ z <> q /\ dp_is med' o y z /\
               forall v, Emb v -> forall x, x < length med -> x <> p -> x <> q ->
                 (v o (nth z med' 0%nat) <= v o (nth x med' 0%nat))%Q)).
        { intros p q h1 h2. rewrite <- hb'.
          eapply oks_mono; [apply update_third_nearest_ok; auto; lia|].
          intros y (z & z1 & z2 & z3 & z4 & z5 & z6). rewrite hlen in *. exists z.
          repeat (split; [solve [auto|lia]|]). split; [split; auto|]. auto. }
        destruct (a =? b) eqn:eab; [apply Nat.eqb_eq in eab; subst a|apply Nat.eqb_neq in eab].
        * destruct (nltb (D o j) (dd (seco3 r))) eqn:e1.
          { cbn [oks]. apply G with (p := b) (q := s) (t := c); auto.
            mins hmin hc3. split; [|split]; fin3. }
          destruct (nltb (D o j) (dd (third3 r))) eqn:e2.
          { cbn [oks]. apply G with (p := s) (q := b) (t := c); auto.
            mins hmin hc3. split; [|split]; fin3. }
          eapply oks_bind; [apply U; auto|]. intros y (z & z1 & z2 & z3 & z4 & z5). cbn [oks].
          apply G with (p := s) (q := c) (t := z); auto.
          mins hmin hc3. split; [|split; [|auto]]; fin3.
        * destruct (s =? b) eqn:esb; [apply Nat.eqb_eq in esb; subst s|apply Nat.eqb_neq in esb].
          -- destruct (nltb (D o j) (dd (near3 r))) eqn:e1.
             { cbn [oks]. apply G with (p := b) (q := a) (t := c); auto.
               mins hmin hc3. split; [|split]; fin3. }
             destruct (nltb (D o j) (dd (third3 r))) eqn:e2.
             { cbn [oks]. apply G with (p := a) (q := b) (t := c); auto.
               mins hmin hc3. split; [|split]; fin3. }
             eapply oks_bind; [apply U; auto|]. intros y (z & z1 & z2 & z3 & z4 & z5). cbn [oks].
             apply G with (p := a) (q := c) (t := z); auto.
             mins hmin hc3. split; [|split; [|auto]]; fin3.
          -- destruct (nltb (D o j) (dd (near3 r))) eqn:e1.
             { cbn [oks]. apply G with (p := b) (q := a) (t := s); auto.
               mins hmin hc3. split; [|split]; fin3. }
             destruct (nltb (D o j) (dd (seco3 r))) eqn:e2.
             { cbn [oks]. apply G with (p := a) (q := b) (t := s); auto.
               mins hmin hc3. split; [|split]; fin3. }
             destruct (nltb (D o j) (dd (third3 r))) eqn:e3.
             { cbn [oks]. apply G with (p := a) (q := s) (t := b); auto.
               mins hmin hc3. split; [|split]; fin3. }
             destruct (c =? b) eqn:ecb; [apply Nat.eqb_eq in ecb; subst c|apply Nat.eqb_neq in ecb].
             ++ eapply oks_bind; [apply U; auto|]. intros y (z & z1 & z2 & z3 & z4 & z5). cbn [oks].
                apply G with (p := a) (q := s) (t := z); auto.
                mins hmin hc3. split; [|split; [|auto]]; fin3.
             ++ cbn [oks]. destruct r as [rn rs rt]. cbn [near3 seco3 third3] in *.
                apply G with (p := a) (q := s) (t := c); auto.
                mins hmin hc3. split; [|split]; fin3.
  Qed.

  Lemma do_swap3_obj_own med v b j o r :
    Dg -> Emb v -> ~ In j med ->
    inr med -> o < n -> j < n -> b < length med ->
    rec3 (length med) med o r -> own3 (length med) med o r ->
    wk (do_swap3_obj (Lt := Lt) M (set_nth med b j) b j (o, r))
       (fun p => own3 (length med) (set_nth med b j) o (fst p)).
  Proof.
    intros hg he hjm hin ho hj hb (a & s & ha & hs & has & [hai had] & [hsi hsd] & hmin & h3) hown.
    assert (hc' : forall c, c <> b -> nth c (set_nth med b j) 0 = nth c med 0)
      by (intros; apply nth_set_nth_neq; auto).
    unfold do_swap3_obj. destruct (o =? j) eqn:eo.
    - apply Nat.eqb_eq in eo. subst o. simpl. intros m hm e.
      destruct (Nat.eq_dec m b) as [->|].
      + destruct (negb (ieqb (di (near3 r)) b)); auto.
      + rewrite hc' in e by auto. exfalso. apply hjm. rewrite <- e. apply nth_In. auto.
    - apply Nat.eqb_neq in eo. rewrite (get_ok HM) by auto. cbn [bind].
      assert (G : forall m, m < length med -> nth m (set_nth med b j) 0 = o ->
                  m <> b /\ a = m /\ nltb (D o j) (dd (near3 r)) = false).
      { intros m hm e. destruct (Nat.eq_dec m b) as [->|hne].
        - rewrite nth_set_nth_eq in e by auto. congruence.
        - rewrite hc' in e by auto. pose proof (hown m hm e) as ho1.
          assert (a = m) as -> by congruence. split; [auto|]. split; [auto|].
          rewrite had by auto. destruct (nltb (D o j) (D o (nth m med 0))) eqn:e1; auto.
          eapply emb_true with (v := v) in e1; eauto.
          * pose proof (emb_pos he ho hj). rewrite e in e1. pose proof (emb_diag he ho). lra.
          * rewrite e. auto. }
      rewrite hai. cbn [ieqb].
      apply wk_bind with (P := fun q => own3 (length med) (set_nth med b j) o q).
      2: { intros q hq. simpl. auto. }
      destruct (a =? b) eqn:eab.
      + apply Nat.eqb_eq in eab. subst a.
        assert (G' : forall q, own3 (length med) (set_nth med b j) o q).
        { intros q m hm e. destruct (G m hm e) as (g1 & g2 & _). congruence. }
        eapply wk_mono; [apply wk_true|]. auto.
      + assert (G' : forall x y, own3 (length med) (set_nth med b j) o (mkReco (near3 r) x y)).
        { intros x y m hm e. destruct (G m hm e) as (g1 & g2 & _). simpl. congruence. }
        assert (G2 : nltb (D o j) (dd (near3 r)) = true ->
                     forall q, own3 (length med) (set_nth med b j) o q).
        { intros h q m hm e. destruct (G m hm e) as (g1 & g2 & g3). congruence. }
        assert (G3 : own3 (length med) (set_nth med b j) o r).
        { destruct r as [rn rs rt]. apply G'. }
        destruct (nltb (D o j) (dd (near3 r))) eqn:e1.
        { destruct (ieqb (di (seco3 r)) b); simpl; auto. }
        destruct (ieqb (di (seco3 r)) b).
        * destruct (_ || _); simpl; auto. eapply wk_bind; [apply wk_true|]. simpl. auto.
        * destruct (nltb (D o j) (dd (seco3 r))); [simpl; auto|].
          destruct (_ || _); [simpl; auto|].
          destruct (ieqb (di (third3 r)) b); [|simpl; auto].
          eapply wk_bind; [apply wk_true|]. simpl. auto.
  Qed.

  (** the loss computed by do_swap: 0 for the new medoid, the ratio for the others *)
  Definition ratio_sum0 (j : nat) (data : list (Reco Nt)) : option Lt :=
    reduce ladd (map (fun '(o, r) => if o =? j then lzero else rec_ratio r) (enum data)).

  Lemma do_swap3_ok med data b j :
    1 <= n -> inr med -> j < n -> b < length med -> 2 <= length med -> data3_ok med data ->
    oks (do_swap3 (Lt := Lt) M med data b j)
        (fun '(med', data', loss') =>
           med' = set_nth med b j /\ data3_ok med' data' /\ ratio_sum0 j data' = Some loss' /\
           (forall r, nth_error data' j = Some r -> near3 r = DP (Some b) nzero) /\
           (forall v, Dg -> Emb v -> ~ In j med -> data3_own med data -> data3_own med' data')).
  Proof.
    intros hn hin hj hb hk [hlen hdata]. unfold do_swap3.
    apply Nat.ltb_lt in hb as hb0. rewrite hb0. cbn [bind assertb].
    rewrite (len_n HM). apply Nat.ltb_lt in hj as hj0. rewrite hj0. cbn [bind assertb].
    rewrite upd_ok by auto. cbn [bind].
    eapply oks_bind.
    { apply mapM_enum with (R := fun o r (p : Reco Nt * Lt) =>
        (rec3 (length med) (set_nth med b j) o (fst p) /\
         snd p = (if o =? j then lzero else rec_ratio (fst p)) /\
         (o = j -> near3 (fst p) = DP (Some b) nzero)) /\
        (forall v, Dg -> Emb v -> ~ In j med -> own3 (length med) med o r ->
           own3 (length med) (set_nth med b j) o (fst p))).
      intros o r hr.
      assert (ho : o < n) by (rewrite <- hlen; apply nth_error_lt with (1 := hr)).
      pose proof (do_swap3_obj_ok hin ho hj hb hk (hdata o r hr)) as h1.
      apply oks_inv in h1 as (p & e & h1).
      apply oks_intro with (1 := e). split; auto.
      intros v hg he hjm hown.
      pose proof (do_swap3_obj_own hg he hjm hin ho hj hb (hdata o r hr) hown) as h2.
      rewrite e in h2. exact h2. }
    intros rs [hl hr].
    assert (hr' : forall o p, nth_error rs o = Some p ->
              exists r, nth_error data o = Some r).
    { intros o p hp. apply nth_error_ex. rewrite <- hl. apply nth_error_lt with (1 := hp). }
    assert (e : map snd rs =
                map (fun '(o, r) => if o =? j then lzero else rec_ratio r) (enum (map fst rs))).
    { apply nth_ext with (d := lzero) (d' := lzero).
      - rewrite !map_length, length_enum, map_length. auto.
      - intros o ho. rewrite map_length in ho.
        destruct (nth_error_ex rs ho) as [p hp].
        destruct (hr' o p hp) as [r hr0]. destruct (hr o r p hr0 hp) as [(_ & h & _) _].
        rewrite nth_error_nth with (x := snd p); [|rewrite nth_error_map, hp; auto].
        symmetry. apply nth_error_nth.
        rewrite nth_error_map, nth_error_enum, nth_error_map, hp. simpl. congruence. }
    rewrite e. unfold ratio_sum0.
    match goal with |- context [reduce ladd ?l] => destruct (reduce_some ladd (l := l)) as [x hx] end.
    { intros h. apply (f_equal (@length _)) in h. rewrite map_length, length_enum, map_length in h.
      simpl in h. lia. }
    rewrite hx. simpl. split; [auto|]. split; [|split; [|split]].
    - split; [rewrite map_length; lia|]. rewrite length_set_nth.
      intros o r h. rewrite nth_error_map in h. destruct (nth_error rs o) eqn:eo; [|discriminate].
      simpl in h. injection h as <-. destruct (hr' _ _ eo) as [r0 h0]. apply (hr _ _ _ h0 eo).
    - auto.
    - intros r h. rewrite nth_error_map in h. destruct (nth_error rs j) eqn:eo; [|discriminate].
      simpl in h. injection h as <-. destruct (hr' _ _ eo) as [r0 h0]. apply (hr _ _ _ h0 eo). auto.
    - intros v hg he hjm hown o r h. rewrite nth_error_map in h.
      destruct (nth_error rs o) eqn:eo; [|discriminate].
      simpl in h. injection h as <-. destruct (hr' _ _ eo) as [r0 h0].
      rewrite length_set_nth. eapply (hr _ _ _ h0 eo); eauto.
  Qed.

  Lemma ratio_sum0_ratio_sum j (data : list (Reco Nt)) :
    nis_zero nzero = true ->
    (forall r, nth_error data j = Some r -> dd (near3 r) = nzero) ->
    ratio_sum0 j data = ratio_sum data.
  Proof.
    intros hz hj. unfold ratio_sum0, ratio_sum. f_equal.
    rewrite <- (map_snd_enum data) at 2. rewrite map_map. apply map_ext_in.
    intros [o r] hin. apply In_enum in hin. simpl.
    destruct (o =? j) eqn:e; auto. apply Nat.eqb_eq in e. subst o.
    unfold rec_ratio, ratio. rewrite (hj _ hin), hz. auto.
  Qed.

  (** ** update_removal_loss, find_best_swap: lengths and indices *)
  Lemma rec3_near t med o r : rec3 t med o r ->
    exists a b, di (near3 r) = Some a /\ a < t /\ di (seco3 r) = Some b /\ b < t.
  Proof. intros (a & b & h1 & h2 & _ & [h3 _] & [h4 _] & _). eauto 10. Qed.

  Lemma data3_near med data r : data3_ok med data -> In r data ->
    as_usize (di (near3 r)) < length med /\ as_usize (di (seco3 r)) < length med.
  Proof.
    intros [_ h] hr. apply In_nth_error in hr as [o hr]. apply h in hr.
    apply rec3_near in hr as (a & b & -> & ha & -> & hb). auto.
  Qed.

  Lemma update_removal_loss3_len med data (rl : list Lt) :
    data3_ok med data -> length rl = length med ->
    oks (update_removal_loss3 data rl) (fun rl' => length rl' = length med).
  Proof.
    intros hd hl. unfold update_removal_loss3. apply foldM_inv.
    - rewrite repeat_length. auto.
    - intros r s hr hs. destruct (data3_near r hd hr) as [h1 h2].
      rewrite add_at_ok by (rewrite hs; auto). cbn [bind].
      rewrite add_at_ok by (rewrite length_set_nth, hs; auto). cbn [oks].
      rewrite !length_set_nth. auto.
  Qed.

  Lemma find_max_idx (l : list Lt) : l <> [] ->
    oks (find_max l) (fun p => fst p < length l /\ snd p = nth (fst p) l lzero).
  Proof.
    destruct l as [|x xs]; [congruence|]. intros _. simpl find_max.
    assert (G : forall ys s best, 
      (forall i y, nth_error ys i = Some y -> nth_error (x :: xs) (s + i) = Some y) ->
      (fst best < length (x :: xs) /\ snd best = nth (fst best) (x :: xs) lzero) ->
      let p := fold_left (fun (best : nat * Lt) '(ik, iv) =>
                            if lltb (snd best) iv then (ik, iv) else best)
                         (combine (seq s (length ys)) ys) best in
      fst p < length (x :: xs) /\ snd p = nth (fst p) (x :: xs) lzero).
    { induction ys as [|y ys IH]; intros s best hys hb; auto.
      cbn [length seq combine fold_left]. apply IH.
      - intros i z hz. specialize (hys (S i) z hz). rewrite <- hys. f_equal. lia.
      - destruct (lltb (snd best) y); auto. simpl fst. simpl snd.
        assert (e : nth_error (x :: xs) s = Some y).
        { specialize (hys 0 y eq_refl). rewrite Nat.add_0_r in hys. auto. }
        split; [apply nth_error_lt with (1 := e)|]. symmetry. apply nth_error_nth. auto. }
    apply G; [intros i y h; exact h|]. simpl. split; auto. lia.
  Qed.

  Lemma find_best_swap3_idx med data (rl : list Lt) j :
    data3_ok med data -> length rl = length med -> 1 <= length med -> j < n ->
    oks (find_best_swap3 M rl data j) (fun p => snd p < length med).
  Proof.
    intros [hn hd] hl hk hj. unfold find_best_swap3.
    eapply oks_bind.
    - apply foldM_enum with (I := fun _ (st : list Lt * Lt) => length (fst st) = length med).
      + auto.
      + intros o r [pl acc] hr hlp. simpl in hlp.
        assert (ho : o < n) by (rewrite <- hn; apply nth_error_lt with (1 := hr)).
        destruct (rec3_near (hd o r hr)) as (a & b & ea & ha & eb & hb).
        unfold fbs3_step. rewrite (get_ok HM) by auto. cbn [bind]. rewrite ea, eb. cbn [as_usize].
        destruct (nltb (D o j) (dd (near3 r))); [|destruct (nltb (D o j) (dd (seco3 r)));
          [|destruct (nltb (D o j) (dd (third3 r)))]].
        all: rewrite ?add_at_ok by lia; cbn [bind];
          rewrite ?add_at_ok by (rewrite ?length_set_nth; lia); cbn [bind oks fst];
          rewrite ?length_set_nth; auto.
    - intros [pl acc] hlp. simpl in hlp. 
      eapply oks_bind; [apply find_max_idx; intros ->; simpl in hlp; lia|].
      intros [b bl] [hb _]. simpl in *. lia.
  Qed.

  (** ** the candidate loop *)
  Record m_inv (k : nat) (st : mst Nt Lt) : Prop := {
    mi_len : length (m_med st) = k;
    mi_inr : inr (m_med st);
    mi_data : data3_ok (m_med st) (m_data st);
    mi_rl : length (m_rl st) = k
  }.

  (** what happens to a state when candidate [j] is considered *)
  Inductive mcand_step (st : mst Nt Lt) (j : nat) : ctl (mst Nt Lt) -> Prop :=
  | ms_break : j = m_last st -> mcand_step st j (Break st)
  | ms_medoid r a : j <> m_last st -> nth_error (m_data st) j = Some r -> di (near3 r) = Some a ->
      nth a (m_med st) 0 = j -> mcand_step st j (Next st)
  | ms_worse change b : j <> m_last st ->
      find_best_swap3 M (m_rl st) (m_data st) j = Ok (change, b) -> lleb change lzero = true ->
      mcand_step st j (Next st)
  | ms_swap r a change b data' rl' loss' :
      j <> m_last st -> nth_error (m_data st) j = Some r -> di (near3 r) = Some a ->
      nth a (m_med st) 0 <> j ->
      find_best_swap3 M (m_rl st) (m_data st) j = Ok (change, b) -> lleb change lzero = false ->
      b < length (m_med st) ->
      do_swap3 M (m_med st) (m_data st) b j = Ok (set_nth (m_med st) b j, data', loss') ->
      update_removal_loss3 data' (m_rl st) = Ok rl' ->
      mcand_step st j (Next (mkM (set_nth (m_med st) b j) data' rl' loss' j (S (m_swaps st)) (m_iter st))).

  Lemma m_inv_swap k st b j data' rl' loss' it sw la :
    1 <= n -> 2 <= k -> j < n -> m_inv k st -> b < length (m_med st) ->
    do_swap3 M (m_med st) (m_data st) b j = Ok (set_nth (m_med st) b j, data', loss') ->
    update_removal_loss3 data' (m_rl st) = Ok rl' ->
    m_inv k (mkM (set_nth (m_med st) b j) data' rl' loss' la sw it).
  Proof.
    intros hn hk hj [h1 h2 h3 h4] hb e1 e2.
    assert (hk' : 2 <= length (m_med st)) by lia.
    pose proof (do_swap3_ok hn h2 hj hb hk' h3) as h. apply oks_elim with (1 := h) in e1.
    destruct e1 as (_ & hd & _). constructor; simpl.
    - rewrite length_set_nth. auto.
    - apply inr_set_nth; auto.
    - auto.
    - assert (hl : length (m_rl st) = length (set_nth (m_med st) b j)).
      { rewrite length_set_nth. congruence. }
      pose proof (update_removal_loss3_len (m_rl st) hd hl) as h5.
      apply oks_elim with (1 := h5) in e2. rewrite e2, length_set_nth. auto.
  Qed.

  Lemma msc_cand_ok k st j :
    1 <= n -> 2 <= k -> j < n -> m_inv k st ->
    oks (msc_cand M st j) (mcand_step st j).
  Proof.
    intros hn hk hj hi. pose proof hi as [h1 h2 h3 h4].
    unfold msc_cand. destruct (j =? m_last st) eqn:el.
    { apply Nat.eqb_eq in el. apply ms_break. auto. }
    apply Nat.eqb_neq in el.
    destruct (nth_error_ex (m_data st) (i := j)) as [r hr]; [destruct h3; lia|].
    rewrite (idx_some _ _ hr). cbn [bind].
    destruct (rec3_near (proj2 h3 j r hr)) as (a & a2 & ea & ha & _).
    rewrite ea. cbn [as_usize]. rewrite idx_nth with (d := 0) by auto. cbn [bind].
    destruct (j =? nth a (m_med st) 0) eqn:em.
    { apply Nat.eqb_eq in em. eapply ms_medoid; eauto. }
    apply Nat.eqb_neq in em.
    assert (hf : oks (find_best_swap3 M (m_rl st) (m_data st) j)
                     (fun p => snd p < length (m_med st)))
      by (apply find_best_swap3_idx; auto; lia).
    apply oks_inv in hf as ([change b] & ef & hb). simpl in hb.
    rewrite ef. cbn [bind]. destruct (lleb change lzero) eqn:ec.
    { eapply ms_worse; eauto. }
    assert (hk' : 2 <= length (m_med st)) by lia.
    pose proof (do_swap3_ok hn h2 hj hb hk' h3) as hs.
    apply oks_inv in hs as ([[med' data'] loss'] & es & hs).
    rewrite es. cbn [bind]. destruct hs as (-> & hd & _).
    assert (hl : length (m_rl st) = length (set_nth (m_med st) b j)).
    { rewrite length_set_nth. congruence. }
    pose proof (update_removal_loss3_len (m_rl st) hd hl) as h5.
    apply oks_inv in h5 as (rl' & er & _). rewrite er. cbn [bind].
    simpl. eapply ms_swap; eauto.
  Qed.

  Lemma mcand_step_inv k st j c :
    1 <= n -> 2 <= k -> j < n -> m_inv k st -> mcand_step st j c ->
    m_inv k (match c with Next s => s | Break s => s end).
  Proof.
    intros hn hk hj hi hc. destruct hc; auto. eapply m_inv_swap; eauto.
  Qed.

  (** induction over a run with an invariant closed under [mcand_step], and counters *)
  Lemma msc_run_inv k maxiter st0 (I : mst Nt Lt -> Prop) :
    1 <= n -> 2 <= k ->
    m_inv k st0 -> I st0 -> m_swaps st0 = 0 -> m_iter st0 = 0 ->
    (forall st it, I st -> I (mkM (m_med st) (m_data st) (m_rl st) (m_loss st) (m_last st)
                                  (m_swaps st) it)) ->
    (forall st j s, m_inv k st -> j < n -> I st -> mcand_step st j (Next s) -> I s) ->
    oks (whileM maxiter (msc_iteration M) st0) (fun st => m_inv k st /\ I st /\
      m_iter st <= maxiter /\ m_swaps st <= n * m_iter st).
  Proof.
    intros hn hk hi0 h0 e1 e2 hit hst.
    apply whileM_oks with
      (I := fun i st => m_inv k st /\ I st /\ m_iter st = i /\ m_swaps st <= n * i).
    - rewrite e1, e2. auto with arith.
    - intros i st hlt (hi & h & hit0 & hsw). unfold msc_iteration. rewrite (len_n HM).
      eapply oks_bind with (P := fun st' => m_inv k st' /\ I st' /\ m_iter st' = S i /\
                                   m_swaps st' <= n * i + n).
      + apply forM_oks with (I := fun pre st' => m_inv k st' /\ I st' /\ m_iter st' = S i /\
                                   m_swaps st' <= n * i + length pre).
        * split; [destruct hi; constructor; auto|]. split; [apply hit; auto|]. simpl. split; lia.
        * intros pre j post s e (his & hI & hsi & hss).
          assert (hjn : j < n).
          { assert (hin : In j (seq 0 n)) by (rewrite e; apply in_or_app; simpl; auto).
            apply in_seq in hin. lia. }
          assert (hle : length pre <= n).
          { apply (f_equal (@length _)) in e. rewrite seq_length, app_length in e. lia. }
          eapply oks_mono; [apply msc_cand_ok with (k := k); auto|].
          intros [s'|s'] hc; pose proof (mcand_step_inv hn hk hjn his hc) as hc'.
          -- split; [exact hc'|]. split; [apply hst with (st := s) (j := j); auto|].
             rewrite app_length; simpl. inversion hc; subst; simpl; split; auto; lia.
          -- inversion hc; subst. split; [auto|]. split; [auto|]. split; lia.
        * intros s (h1 & h2 & h3 & h4). rewrite seq_length in h4. auto.
      + intros st' (h1 & h2 & h3 & h4).
        destruct (_ || _); cbn [oks].
        * rewrite h3. split; [auto|]. split; [auto|]. split; lia.
        * split; [auto|]. split; [auto|]. split; [auto|]. lia.
    - intros st (h1 & h2 & h3 & h4). rewrite h3. auto.
  Qed.

  Lemma assignment3_shape k med data :
    length med = k -> data3_ok med data ->
    length (assignment3_of data) = n /\ forall a, In a (assignment3_of data) -> a < k.
  Proof.
    intros hl hd. split; [unfold assignment3_of; rewrite map_length; apply hd|].
    intros a ha. apply in_map_iff in ha as (r & <- & hr). rewrite <- hl.
    eapply data3_near; eauto.
  Qed.
End Shape.
