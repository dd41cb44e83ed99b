(** TermDyn.v -- dynmsc stops by itself as well.  With five or more medoids its cached second nearest
    medoids can be wrong after a medoid was dropped (C31), so the loss is no longer a function of the
    medoids; it is a sum of quotients of entries of the matrix, of which there are finitely many. *)
From Coq Require Import ZArith QArith Lqa Lia.
From Verif Require Import Base Num M_Mat M_Util M_Fasterpam M_Silhouette M_Msc M_Dynmsc Hoare
  Spec SpecFacts Laws PamShape Reference LocalSearch FpFacts ChooseFacts PamFacts PamMain MscShape MscFacts MscK2
  DynShape DynFacts Term TermMsc.
Set Implicit Arguments.
Open Scope nat_scope.

Section Stop.
  Context {Nt Lt : Type} `{HRO : RatioOrder Nt Lt}.
  Variable M : Mat Nt.
  Variable n : nat.
  Variable D : nat -> nat -> Nt.
  Hypothesis HD : diss_matrix M n D.
  Let HM : is_matrix M n D := proj1 HD.
  Let Hdg : Dg n D := proj2 (emb_vals HD).
  Hypothesis Hsame : same_losses (Lt := Lt) n D.
  Hypothesis Hratios : ratios_ok (Lt := Lt) n D.
  Hypothesis Hn : 1 <= n.

  (** a pair of objects for every object, as one number *)
  Definition pair_ratio (o c : nat) : Lt := ratio (D o (c / n)) (D o (c mod n)).
  Definition pairsF (l : list nat) : Lt :=
    match reduce ladd (map (fun '(o, c) => pair_ratio o c) (enum l)) with Some x => x | None => lzero end.

  Lemma pair_ratio_ok o c : o < n -> c < n * n -> okL (pair_ratio o c).
  Proof.
    intros ho hc. unfold pair_ratio. apply (ratio_ok HD Hratios); auto.
    - apply Nat.div_lt_upper_bound; lia.
    - apply Nat.mod_upper_bound. lia.
  Qed.

  Lemma pairsF_ok l : length l = n -> inr (n * n) l -> okL (pairsF l).
  Proof.
    intros hl hi. unfold pairsF. destruct (reduce _ _) as [x|] eqn:e; [|apply okL_zero].
    apply reduce_ok with (2 := e). intros y hy. apply in_map_iff in hy as ([o c] & <- & h).
    unfold enum in h. pose proof (in_combine_l _ _ _ _ h) as h1. pose proof (in_combine_r _ _ _ _ h) as h2.
    apply in_seq in h1. apply pair_ratio_ok; [lia|auto].
  Qed.

  Lemma pairs_of (data : list (Reco Nt)) : forall i,
    (forall o r, nth_error data o = Some r -> exists x y, x < n /\ y < n /\
       rec_ratio (Lt := Lt) r = ratio (D (i + o) x) (D (i + o) y)) ->
    exists l, length l = length data /\ inr (n * n) l /\
      map (rec_ratio (Lt := Lt)) data = map (fun '(o, c) => pair_ratio o c) (combine (seq i (length l)) l).
  Proof.
    induction data as [|r data IH]; intros i h.
    - exists []. split; [auto|]. split; [intros c []|auto].
    - destruct (IH (S i)) as (l & l1 & l2 & l3).
      { intros o r' hr. destruct (h (S o) r' hr) as (x & y & h1). exists x, y.
        replace (S i + o) with (i + S o) by lia. exact h1. }
      destruct (h 0 r eq_refl) as (x & y & hx & hy & e). rewrite Nat.add_0_r in e.
      exists (x * n + y :: l). split; [simpl; lia|]. split.
      { intros c [<-|hc]; [|apply l2; auto]. nia. }
      cbn [length seq combine map]. f_equal; [|exact l3].
      unfold pair_ratio. rewrite e. rewrite Nat.div_add_l by lia. rewrite Nat.div_small by auto.
      rewrite Nat.add_0_r, Nat.add_comm, Nat.mod_add by lia. rewrite Nat.mod_small by auto. reflexivity.
  Qed.

  Lemma known_pairs X k st : 2 <= k -> m_known n D X k st ->
    exists l, length l = n /\ inr (n * n) l /\ m_loss st = pairsF l.
  Proof.
    intros hk [[i1 i2 [hl hd] i4] hss].
    destruct (@pairs_of (m_data st) 0) as (l & l1 & l2 & l3).
    { intros o r hr. destruct (hd o r hr) as (a & b & ha & hb & _ & [_ da] & [_ db] & _).
      exists (nth a (m_med st) 0), (nth b (m_med st) 0).
      split; [apply inr_nth; auto|]. split; [apply inr_nth; auto|].
      unfold rec_ratio. rewrite (da Hdg), (db Hdg). auto. }
    exists l. split; [lia|]. split; [auto|]. unfold pairsF, enum. rewrite <- l3.
    unfold ratio_sum in hss. rewrite hss. auto.
  Qed.

  Definition any_bound : nat := (n * n) ^ n.

  (** one search, the cached medoids possibly wrong *)
  Lemma search_stops X k st f f' : 2 <= k -> m_known n D X k st -> any_bound <= f -> any_bound <= f' ->
    whileM f (msc_iteration (Lt := Lt) M) st = whileM f' (msc_iteration M) st.
  Proof.
    intros hk hst hf hf'.
    apply (@loop_stops_some _ _ _ _ _ _ _ (n * n) n pairsF) with (I := m_known n D X k)
      (lossof := fun st => m_loss st); auto.
    - apply pairsF_ok.
    - intros s hs. apply known_pairs with X k; auto.
    - intros s s' hs e. pose proof (msc_iteration_next HD Hn hk hs) as h. rewrite e in h. exact h.
  Qed.

  (** likewise with the right ones *)
  Lemma search_stops_right X k st f f' : 2 <= k -> sizes n k -> m_known n D X k st -> X ->
    n ^ k <= f -> n ^ k <= f' ->
    whileM f (msc_iteration (Lt := Lt) M) st = whileM f' (msc_iteration M) st.
  Proof.
    intros hk hs hst hX hf hf'.
    apply (@loop_stops _ _ _ _ _ _ _ n k (msF M)) with (I := m_known n D True k)
      (medof := fun st => m_med st) (lossof := fun st => m_loss st); auto.
    - intros m h1 h2. apply (msF_ok HD Hratios); auto; rewrite h1; auto.
    - intros s [[i1 i2 i3 i4] hss]. split; [auto|]. split; [auto|].
      apply (msF_unique HD Hsame) with (m_data s); auto; rewrite i1; auto.
    - intros s s' hs0 e. pose proof (msc_iteration_next HD Hn hk hs0) as h. rewrite e in h. exact h.
    - destruct hst as [[i1 i2 i3 i4] hss]. split; [|auto]. constructor; auto.
      apply data3_weaken with (2 := i3); auto.
  Qed.

  Variable med0 : list nat.
  Local Notation k0 := (length med0).
  Hypothesis Hs : sizes n k0.
  Hypothesis Hin : inr n med0.

  (** the limit beyond which nothing changes any more *)
  Definition dyn_bound : nat := if k0 <=? 4 then n ^ k0 else n ^ (2 * n).

  Lemma start_known c s0 : start n D med0 c s0 -> m_known (Lt := Lt) n D (grd med0 c) c s0.
  Proof. intros [h1 _ _ _ _ _ h7]. split; auto. Qed.

  Lemma start_stops c s0 f f' : 2 <= c <= k0 -> start n D med0 c s0 -> dyn_bound <= f -> dyn_bound <= f' ->
    whileM f (msc_iteration (Lt := Lt) M) s0 = whileM f' (msc_iteration M) s0.
  Proof.
    intros hc h hf hf'. apply start_known in h. unfold dyn_bound in *. destruct (Nat.leb_spec k0 4) as [h4|h4].
    - assert (hp : n ^ c <= n ^ k0) by (apply Nat.pow_le_mono_r; lia).
      apply search_stops_right with (X := grd med0 c) (k := c); auto; try lia.
      + unfold sizes in *. lia.
      + right. auto.
    - rewrite Nat.pow_mul_r in *. replace (n ^ 2) with (n * n) in * by (simpl; lia).
      apply search_stops with (X := grd med0 c) (k := c); auto; lia.
  Qed.

  Section Rounds.
    Variables mk f f' : nat.
    Hypothesis Hk : 2 <= k0.
    Hypothesis Hmk : 1 <= mk <= k0.
    Hypothesis Hf : dyn_bound <= f.
    Hypothesis Hf' : dyn_bound <= f'.

    (** the state in which the search of a round starts *)
    Lemma round_start i st : d_inv M n med0 f mk i st -> 3 <= k0 - i ->
      exists rl, update_removal_loss3 (y_data st) (y_rl st) = Ok rl /\
        start (Lt := Lt) n D med0 (k0 - i) (mkM (y_med st) (y_data st) rl (y_loss st) n 0 0).
    Proof.
      intros hi h3. assert (hk3 : 3 <= k0) by lia.
      destruct (di_prev hi) as [(-> & e1 & e2 & e3 & _)|(hi0 & s & b & e1 & e2 & e3 & e4)].
      - destruct (first_start HM Hs Hin hk3) as (loss1 & data1 & rl1 & f1 & f2 & f3).
        rewrite e1 in f1. injection f1 as <- <-. rewrite e3, e2, Nat.sub_0_r. eauto.
      - pose proof (rounds_stage HM Hs Hin hk3 e1) as hst.
        assert (hc' : 3 <= S (k0 - i)) by lia.
        destruct (stage_removal HM Hn hc' hst) as (b1 & med1 & data1 & loss1 & f1 & f2 & f3 & f4 & f5 & f6 & f7 & _ & f8).
        rewrite e2 in f1. injection f1 as <-. rewrite e3 in f3. injection f3 as e5 e6 e7.
        destruct f8 as (rl1 & g1 & g2); [lia|]. rewrite <- e5, <- e6, <- e7 in *.
        rewrite e4. replace (S (k0 - i) - 1) with (k0 - i) in g2 by lia. eauto.
    Qed.

    Lemma round_same i st : d_inv M n med0 f mk i st -> dyn_round (Lt := Lt) M mk f st = dyn_round M mk f' st.
    Proof.
      intros hi. unfold dyn_round. rewrite (di_len hi).
      destruct (negb _) eqn:eb; [auto|].
      apply negb_false_iff, andb_true_iff in eb as [eb1 eb2]. apply Nat.leb_le in eb1, eb2.
      destruct (round_start hi eb1) as (rl & -> & hst). cbn [bind]. rewrite (len_n HM).
      rewrite (@start_stops (k0 - i) _ f f'); auto. lia.
    Qed.

    Lemma rounds_same fuel : forall i st, d_inv M n med0 f mk i st ->
      whileM fuel (dyn_round (Lt := Lt) M mk f) st = whileM fuel (dyn_round M mk f') st.
    Proof.
      induction fuel as [|fuel IH]; intros i st hi; [auto|]. cbn [whileM].
      pose proof (dyn_round_ok HM Hs Hin Hk Hmk hi) as h. rewrite <- (round_same hi).
      destruct (dyn_round M mk f st) as [[s|s]|p]; cbn [bind oks] in *; auto. apply IH with (S i). exact h.
    Qed.
  End Rounds.

  Lemma two_le_bound : 2 <= k0 -> n ^ 2 <= dyn_bound.
  Proof.
    intros hk. unfold dyn_bound. assert (2 <= n) by (unfold sizes in Hs; lia).
    destruct (k0 <=? 4); apply Nat.pow_le_mono_r; lia.
  Qed.

  Lemma dynmsc_stops mink f f' : dyn_bound <= f -> dyn_bound <= f' ->
    dynmsc (Lt := Lt) M med0 mink f = dynmsc M med0 mink f'.
  Proof.
    intros hf hf'. unfold dynmsc. destruct (Nat.eqb_spec k0 1) as [|e1]; [auto|].
    assert (hk : 2 <= k0) by (unfold sizes in Hs; lia). pose proof (two_le_bound hk) as h2.
    set (mk := Nat.min (Nat.max mink 1) k0).
    assert (hmk : 1 <= mk <= k0) by (unfold mk; lia). clearbody mk.
    pose proof (initial_assignment3_ok (Lt := Lt) HM True Hs Hin hk) as h.
    apply oks_inv in h as ([loss data] & e & _). rewrite e. cbn [bind].
    assert (hi : d_inv M n med0 f mk 0
       (mkD med0 data (repeat lzero k0) loss (repeat lzero (k0 - mk + 1)) lzero [0; mlen M] med0 0 0)).
    { constructor; cbn [y_med y_data y_rl y_loss y_losses y_best y_assi y_meds y_iter y_swaps]; try lia.
      + left. auto 10.
      + apply repeat_length.
      + intros c _ _. apply nth_repeat.
      + left. rewrite (len_n HM). auto.
      + intros P le (h & _) p0 _. split; [auto|]. split; [auto|]. lia. }
    rewrite <- (@rounds_same mk f f' hk hmk hf hf' k0 0 _ hi).
    pose proof (dyn_loop_ok HM f Hs Hin hk hmk e) as hl.
    apply oks_inv in hl as (st & -> & i & hi' & hend). cbn [bind].
    destruct (Nat.leb_spec mk 2) as [hm|hm]; [|auto].
    assert (hl2 : length (y_med st) = 2).
    { rewrite (di_len hi'), hend. destruct (k0 =? 2); lia. }
    assert (hin2 : inr n (y_med st)).
    { destruct (di_prev hi') as [(_ & _ & -> & _)|(hi0 & s & b & q1 & q2 & q3 & _)]; [exact Hin|].
      assert (hk3 : 3 <= k0) by (apply (di_three hi' hi0)).
      pose proof (rounds_stage HM Hs Hin hk3 q1) as hst.
      assert (hc : 3 <= S (k0 - i)) by (pose proof (di_two hi' hi0); lia).
      destruct (stage_removal HM Hn hc hst) as (b1 & med1 & data1 & loss1 & f1 & f2 & f3 & f4 & f5 & f6 & _).
      rewrite q2 in f1. injection f1 as <-. rewrite q3 in f3. injection f3 as -> _ _. exact f6. }
    assert (hs2 : sizes n 2) by (unfold sizes in *; lia).
    assert (ek : fastermsc_k2 (Lt := Lt) M (y_med st) f = fastermsc_k2 M (y_med st) f').
    { assert (hs2' : sizes n (length (y_med st))) by (rewrite hl2; auto).
      pose proof (fastermsc_stops HD Hsame Hratios (f := f) (f' := f') hs2' hin2) as h.
      rewrite hl2 in h. specialize (h ltac:(lia) ltac:(lia)).
      unfold fastermsc in h. rewrite hl2 in h. exact h. }
    rewrite ek. auto.
  Qed.
End Stop.
