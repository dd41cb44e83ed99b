(** FloatMsc2.v -- binary64: where fastermsc stops, and the variants with two medoids *)
From Coq Require Import ZArith QArith Qpower Lqa Lia.
From Coq.Floats Require Import SpecFloat.
From Verif Require Import Base Num M_Mat M_Util M_Fasterpam M_Silhouette M_Msc M_Pammedsil Inst Hoare Spec SpecFacts Laws
  FloatFacts FloatExact FloatRound PamShape PamExact PamFacts MscShape MscExact MscFacts MscK2 TermMsc FloatSil FloatLoss FloatMain
  FloatFmt FloatSwap FloatMsc FloatPass.
Set Implicit Arguments.
Open Scope Q_scope.

Section Msc2.
  Context {U : SumErr} {Nt : Type} `{HO : OrdLaws Nt} `{HFN : FromN Nt f64}.
  Variable M : Mat Nt.
  Variable n : nat.
  Variable D : nat -> nat -> Nt.
  Hypothesis HD : diss_matrix M n D.
  Hypothesis HE : exact_from n D.
  Hypothesis Hn : (1 <= n)%nat.
  Hypothesis Hn32 : (N.of_nat n <= 4294967295)%N.
  Local Notation v := (vals D).
  Let HM : is_matrix M n D := proj1 HD.
  Let Hemb : Emb n D v := proj1 (emb_vals HD).
  Let Hdg : Dg n D := proj2 (emb_vals HD).

  (** no swap with candidate [j] gains more than [E] *)
  Definition no_gain3 (E : Q) (med : list nat) (j : nat) : Prop :=
    ~ In j med -> forall c, (c < length med)%nat -> gain n D med c j <= E.

  Lemma no_gain3_nearly E med : (forall j, (j < n)%nat -> no_gain3 E med j) -> nearly3 n D E med.
  Proof. intros h b j hb hj hni. apply h; auto. Qed.

  (** ** fastermsc with three or more medoids *)
  Section Three.
    Hypothesis HA : adds_within serr n D.

    Record m_core (k : nat) (s : mst Nt f64) : Prop := {
      mc_inv : m_inv n D True k s;
      mc_own : data3_own (m_med s) (m_data s);
      mc_nodup : NoDup (m_med s);
      mc_rl : rl_near3 n (m_data s) (m_rl s);
      mc_sum : MscShape.ratio_sum (m_data s) = Some (m_loss s)
    }.

    Lemma mc_loss k s : m_core k s -> loss_near n D (m_med s) (m_loss s).
    Proof. intros [[i1 i2 i3 i4] _ _ _ h]. eapply loss3_near; eauto. Qed.

    Definition mstep k := step_near (@m_med Nt f64) (@m_last Nt f64) (@m_swaps Nt f64) (@m_iter Nt f64)
      (rtot v n) (err3 n) (no_gain3 (err3 n)) (m_core k).

    Lemma msc_cand_near k s j : (3 <= k)%nat -> (j < n)%nat -> m_core k s -> oks (msc_cand M s j) (mstep k s j).
    Proof.
      intros hk hj [g1 g2 g3 g4 g5]. pose proof (err3_pos n) as hep. pose proof g1 as [i1 i2 i3 i4].
      assert (hk2 : (2 <= k)%nat) by lia.
      eapply oks_mono; [apply (msc_cand_ok HM Hn hk2 hj g1)|].
      intros c hc.
      assert (hfb : forall change b, find_best_swap3 M (m_rl s) (m_data s) j = Ok (change, b) -> slot_near3 n D (m_med s) j (change, b)).
      { intros change b e.
        assert (hl : length (m_rl s) = length (m_med s)) by congruence.
        assert (hk' : (3 <= length (m_med s))%nat) by lia.
        pose proof (find_best_swap3_near HD HE Hn Hn32 HA i2 hk' i3 hl hj g4) as hb.
        apply oks_elim with (2 := e) in hb. exact hb. }
      destruct hc as [e1|r a e1 e2 e3 e4|ch b e1 e2 e3|r a ch b data' rl' loss' e1 e2 e3 e4 e5 e6 e7 e8 e9].
      - split; auto.
      - split; [constructor; auto|]. split; [auto|]. split; [auto|]. left. split; [auto|].
        intros hni. exfalso. apply hni. rewrite <- e4. apply nth_In.
        destruct (rec3_near (proj2 i3 j r e2)) as (a' & a2 & ea & ha & _). congruence.
      - split; [constructor; auto|]. split; [auto|]. split; [auto|]. left. split; [auto|].
        intros hni c hc. destruct (hfb _ _ e2) as (b1 & b2 & b3 & b4). cbn [fst snd] in *.
        apply f64_lleb in e3; [|auto|exact I]. rewrite zero_val in e3. specialize (b4 c hc). lra.
      - destruct (hfb _ _ e5) as (b1 & b2 & [b3 b3'] & b4). cbn [fst snd] in *.
        apply f64_lleb_false in e6; [|auto|exact I]. rewrite zero_val in e6.
        assert (hjm : ~ In j (m_med s)) by eauto using own3_not_in.
        assert (hk' : (2 <= length (m_med s))%nat) by lia.
        pose proof (m_inv_swap HM (m_iter s) (S (m_swaps s)) j Hn hk2 hj g1 e7 e8 e9) as hi.
        pose proof (do_swap3_ok (Lt := f64) HM Hn i2 hj e7 hk' i3) as hs1.
        apply oks_elim with (2 := e8) in hs1. destruct hs1 as (_ & s1 & s2 & s3 & s4).
        split; [constructor; cbn [m_med m_data m_rl m_loss]|].
        + auto.
        + eapply s4; eauto.
        + apply NoDup_set_nth; auto.
        + assert (hl : length (m_rl s) = length (set_nth (m_med s) b j)) by (rewrite length_set_nth; congruence).
          assert (hk3 : (3 <= length (set_nth (m_med s) b j))%nat) by (rewrite length_set_nth; lia).
          pose proof (update_removal_loss3_near HD HE Hn Hn32 (m_rl s) (inr_set_nth b i2 hj) hk3 s1 hl) as hu.
          apply oks_elim with (2 := e9) in hu. apply hu.
        + eapply swap3_sum; eauto.
        + split; [auto|]. split; [auto|]. right. cbn [m_med m_last m_swaps]. split; [auto|]. split; [auto|]. split.
          * rewrite <- (nth_set_nth_eq (m_med s) j 0%nat e7) at 1. apply nth_In. rewrite length_set_nth. auto.
          * unfold gain in b3, b3'. rewrite swap_set_nth in b3, b3' by auto. lra.
    Qed.

    Lemma fastermsc_near k maxiter (s0 : mst Nt f64) :
      (3 <= k)%nat -> m_core k s0 -> m_last s0 = n -> m_swaps s0 = 0%nat -> m_iter s0 = 0%nat ->
      oks (whileM maxiter (msc_iteration M) s0) (fun s =>
        m_core k s /\ rtot v n (m_med s) <= f64_val (m_loss s0) + sum_err n + cnt n * err3 n /\
        (m_swaps s = 0%nat -> (1 <= maxiter)%nat -> nearly3 n D (err3 n) (m_med s)) /\
        ((m_iter s < maxiter)%nat -> nearly3 n D (err3 n) (m_med s) \/
           exists i s1, m_iter s = S i /\ m_core k s1 /\ whileM i (msc_iteration M) s0 = Ok s1 /\
             f64_val (m_loss s1) <= f64_val (m_loss s))).
    Proof.
      intros hk hc hl hs hi.
      pose proof (@passes (mst Nt f64) (@m_med Nt f64) (@m_last Nt f64) (@m_swaps Nt f64) (@m_iter Nt f64) (@m_loss Nt f64)
        (@inc3 Nt f64) (fun _ => eq_refl) (fun _ => eq_refl) (fun _ => eq_refl) (fun _ => eq_refl) n (rtot v n) (err3 n) (sum_err n)
        (err3_pos n) (no_gain3 (err3 n))) as hp.
      assert (h1 : forall (m : list nat) j, In j m -> no_gain3 (err3 n) m j) by (intros m j h hni; contradiction).
      assert (h2 : forall s, m_core k s -> m_core k (inc3 s)).
      { intros s [[] ? ? ? ?]. constructor; auto. constructor; auto. }
      assert (h3 : forall s, m_core k s -> f64_finite (m_loss s) /\ close (sum_err n) (rtot v n (m_med s)) (m_loss s)).
      { intros s h. destruct (mc_loss h) as [[q _] q']. auto. }
      specialize (hp h1 (m_core k) h2 h3 (msc_cand M)).
      assert (h4 : forall s j, (j < n)%nat -> m_core k s -> oks (msc_cand M s j) (mstep k s j)).
      { intros s j hj h. apply msc_cand_near; auto. }
      specialize (hp h4 maxiter s0 hc hl hs hi).
      assert (hbody : forall i, whileM i (pass (@m_swaps Nt f64) (@m_loss Nt f64) (@inc3 Nt f64) n (msc_cand M)) s0 = whileM i (msc_iteration M) s0).
      { intros i. unfold msc_iteration. rewrite (len_n HM). reflexivity. }
      rewrite hbody in hp. eapply oks_mono; [exact hp|].
      intros s (a1 & a2 & a3 & a4). split; [auto|]. split; [auto|]. split.
      - intros h5 h6. apply no_gain3_nearly. auto.
      - intros h5. destruct (a4 h5) as [h6|(i & s1 & h6 & h7 & h8 & h9)]; [left; apply no_gain3_nearly; auto|right].
        exists i, s1. rewrite hbody in h8. auto.
    Qed.
  End Three.

  (** ** two medoids *)
  (** the number of the first [t] objects which are not at [j] *)
  Definition far (j t : nat) : nat := length (filter (fun o => negb (Qeq_bool (v o j) 0)) (seq 0 t)).

  Lemma far_S j t : far j (S t) = if Qeq_bool (v t j) 0 then far j t else S (far j t).
  Proof.
    unfold far. rewrite seq_S, filter_app, app_length. cbn [filter Nat.add]. destruct (Qeq_bool (v t j) 0); cbn [negb length]; lia.
  Qed.

  Lemma far_le j t : (far j t <= t)%nat.
  Proof. induction t as [|t IH]; [apply le_n|]. rewrite far_S. destruct (Qeq_bool _ _); lia. Qed.

  (** the part of object [o] in the loss after the swap *)
  Definition term2 (med : list nat) (o b j : nat) : f64 :=
    if nltb (D o j) (D o (nth (1 - b)%nat med 0%nat)) then ratio (D o j) (D o (nth (1 - b)%nat med 0%nat))
    else ratio (D o (nth (1 - b)%nat med 0%nat)) (D o j).

  Lemma term2_in med o b j : length med = 2%nat -> inr n med -> (o < n)%nat -> (j < n)%nat -> (b < 2)%nat ->
    within 0 1 (term2 med o b j) /\ close (2 ^ (-53)) (near_ratio v o (swap med b j)) (term2 med o b j).
  Proof.
    intros hl hin ho hj hb. unfold term2.
    assert (hm : (nth (1 - b) med 0 < n)%nat) by (apply inr_nth; auto; lia).
    assert (h1 : (b < 2)%nat) by auto. assert (h2 : (1 - b < 2)%nat) by lia. assert (h3 : b <> (1 - b)%nat) by lia.
    pose proof (near_ratio_swap2 v o med j hl h1 h2 h3 hb) as e. cbv zeta in e.
    rewrite Nat.eqb_refl in e. revert e. rewrite (nltb_dec HD) by auto.
    destruct (Qlt_le_dec (v o j) (v o (nth (1 - b) med 0%nat))) as [h|h]; intros e.
    - destruct (@ratio_in _ _ _ _ M n D HD HE o j (nth (1 - b) med 0%nat)) as [q1 q2]; auto; [lra|].
      split; [exact q1|]. eapply close_ext; [reflexivity|symmetry; exact e|exact q2].
    - destruct (@ratio_in _ _ _ _ M n D HD HE o (nth (1 - b) med 0%nat) j) as [q1 q2]; auto.
      split; [exact q1|]. eapply close_ext; [reflexivity|symmetry; exact e|exact q2].
  Qed.

  Lemma one_val : f64_finite (lone : f64) /\ f64_val (lone : f64) == 1.
  Proof. split; reflexivity. Qed.

  (** when the other medoid is [j] as well, the quotient is one *)
  Lemma ratio_one o j : (o < n)%nat -> (j < n)%nat -> ~ v o j == 0 -> 1 <= f64_val (ratio (D o j) (D o j)).
  Proof.
    intros ho hj hne. unfold ratio.
    destruct (nis_zero (D o j)) eqn:e; [exfalso; apply hne; eapply zero_entry; eauto|]. cbn [orb].
    destruct (HE ho hj) as [a1 a2]. destruct one_val as [o1 o2]. rewrite <- o2.
    apply rounds_ge with (x := f64_val (lfrom (D o j)) / f64_val (lfrom (D o j))).
    - assert (eq : f64_val (lfrom (D o j)) / f64_val (lfrom (D o j)) == 1).
      { field. rewrite a2. auto. }
      apply div_rounds; auto; try (rewrite eq); try (apply Qlt_le_weak; reflexivity).
      rewrite a2. auto.
    - exact o1.
    - assert (eq : f64_val (lfrom (D o j)) / f64_val (lfrom (D o j)) == 1) by (field; rewrite a2; auto).
      rewrite eq, o2. lra.
  Qed.

  Lemma add_at_least (t : nat) (x y : f64) q m : fits53 (S t) -> (m <= S t)%nat -> within 0 (cnt t) x -> within 0 1 y ->
    q == f64_val x + f64_val y -> cnt m <= q -> cnt m <= f64_val (ladd x y).
  Proof.
    intros hf hm (x1 & x2 & x3) (y1 & y2 & y3) e hq.
    destruct (@of_nat_val m) as [f1 f2]; [unfold fits53 in *; lia|]. rewrite <- f2.
    apply rounds_ge with (x := f64_val x + f64_val y); auto; [|rewrite f2; lra].
    assert (hb : cnt (S t) <= 2 ^ 1023).
    { pose proof (@cnt_big (S t) 0 hf ltac:(lia)) as h. change (2 ^ 0) with 1 in h.
      assert (2 ^ 1022 <= 2 ^ 1023) by (apply pow2_le; lia). lra. }
    rewrite cnt_S in hb. apply add_rounds; auto; [|lra].
    assert (0 <= 2 ^ 1023) by (apply Qlt_le_weak; reflexivity). lra.
  Qed.

  Definition slot2 (med : list nat) (j : nat) (p : f64 * nat) : Prop :=
    (snd p < 2)%nat /\ loss_near n D (swap med (snd p) j) (fst p) /\
    (forall c, (c < 2)%nat -> f64_val (fst p) <= rtot v n (swap med c j) + sum_err n) /\
    (nth (1 - snd p)%nat med 0%nat = j -> cnt (far j n) <= f64_val (fst p)).

  Lemma find_best_swap_k2_near med assi data (xs : list f64) j :
    length med = 2%nat -> inr n med -> tab2 n D med assi data xs -> (j < n)%nat ->
    oks (find_best_swap_k2 M data j) (slot2 med j).
  Proof.
    intros hl hin ht hj. unfold find_best_swap_k2.
    pose proof ht as (_ & hlen & _). assert (h53 : fits53 n) by (apply fits_u32; auto).
    pose (I := fun t c (x : f64) => within 0 (cnt t) x /\
      close (sum_err t) (sumQ (fun o => near_ratio v o (swap med c j)) (seq 0 t)) x /\
      (nth (1 - c)%nat med 0%nat = j -> cnt (far j t) <= f64_val x)).
    assert (step : forall t c (x : f64), (t < n)%nat -> (c < 2)%nat -> I t c x -> I (S t) c (ladd x (term2 med t c j))).
    { intros t c x hlt hc (h1 & h2 & h3). destruct (@term2_in med t c j hl hin hlt hj hc) as [q1 q2].
      assert (hf : fits53 (S t)) by (unfold fits53 in *; lia).
      destruct (@add_close t x (term2 med t c j) _ _ hf h1 h2 q1 q2) as [a1 a2].
      split; [exact a1|]. split.
      - eapply close_ext; [reflexivity| |exact a2]. symmetry. apply sumQ_seq_S.
      - intros e. specialize (h3 e). rewrite far_S. pose proof (far_le j t) as hfl.
        eapply add_at_least; eauto; [destruct (Qeq_bool _ _); lia|reflexivity|].
        destruct (Qeq_bool (v t j) 0) eqn:ez.
        + destruct q1 as (_ & q1 & _). lra.
        + rewrite cnt_S. unfold term2. rewrite e.
          assert (hne : ~ v t j == 0) by (intros h; apply Qeq_bool_iff in h; congruence).
          pose proof (@ratio_one t j hlt hj hne). destruct (nltb (D t j) (D t j)); lra. }
    eapply oks_bind.
    - apply foldM_enum with (I := fun t (pl : f64 * f64) => (t <= n)%nat -> I t 0%nat (fst pl) /\ I t 1%nat (snd pl)).
      + intros _. cbn [fst snd]. assert (h0 : forall c, I 0%nat c lzero).
        { intros c. unfold I, within, close, sum_err, far. cbn [seq sumQ fold_right filter length]. change (cnt 0) with 0. rewrite zero_val.
          split; [split; [exact Logic.I|split; apply Qle_bool_iff; reflexivity]|].
          split; [split; apply Qle_bool_iff; reflexivity|intros _; apply Qle_bool_iff; reflexivity]. }
        split; apply h0.
      + intros o [d0 d1] pl ho hI.
        assert (hon : (o < n)%nat) by (rewrite <- hlen; apply nth_error_lt with (1 := ho)).
        destruct (hI ltac:(lia)) as [h1 h2].
        destruct (tab2_get ht hon) as (a & d & x' & ha & hd & hx' & hobj).
        rewrite ho in hd. injection hd as <-.
        destruct hobj as (_ & d0' & d1' & _). cbn [fst snd] in d0', d1'.
        apply (dat_exact HD) in d0'; auto. apply (dat_exact HD) in d1'; auto. subst d0 d1.
        unfold fbs2_step. rewrite (get_ok HM) by auto. cbn [bind oks fst snd]. intros _. split.
        * apply (step o 0%nat (fst pl)); auto; lia.
        * apply (step o 1%nat (snd pl)); auto; lia.
    - rewrite hlen. intros pl hI. destruct (hI (le_n n)) as [h1 h2].
      eapply oks_bind; [apply find_min_f64; [congruence|]|].
      + intros x [<-|[<-|[]]]; [apply h1|apply h2].
      + intros [b x] (f1 & f2 & f3). cbn [oks fst snd length] in *.
        assert (E : forall c, (c < 2)%nat -> I n c (nth c [fst pl; snd pl] lzero)).
        { intros c hc. destruct c as [|[|]]; [| |lia]; cbn [nth]; auto. }
        destruct (E b f1) as (q1 & q2 & q3). rewrite <- f2 in *.
        split; [auto|]. cbn [fst snd]. split; [split; auto|]. split; [|auto].
        intros c hc. destruct (E c hc) as (_ & [_ q4] & _). specialize (f3 c hc). unfold rtot. lra.
  Qed.

  (** ** the loss with two medoids *)
  Lemma tab2_terms med assi data (xs : list f64) : length med = 2%nat -> inr n med -> tab2 n D med assi data xs ->
    xs = map (fun o => nth o xs lzero) (seq 0 n) /\
    forall o, (o < n)%nat -> within 0 1 (nth o xs lzero) /\ close (2 ^ (-53)) (near_ratio v o med) (nth o xs lzero) /\
      (forall j, In j med -> v o j == 0 -> f64_val (nth o xs lzero) == 0).
  Proof.
    intros hl hin ht. pose proof ht as (_ & _ & hlen & _). split; [rewrite <- hlen; symmetry; apply map_nth_seq|].
    intros o ho. destruct (tab2_get ht ho) as (a & d & x & ha & hd & hx & hobj).
    rewrite (nth_error_nth _ _ lzero hx). destruct (obj2_entry HD hl hin ho hobj) as (ha2 & -> & hle).
    assert (hm : forall c, (c < 2)%nat -> (nth c med 0 < n)%nat) by (intros; apply inr_nth; auto; lia).
    destruct (@ratio_in _ _ _ _ M n D HD HE o (nth a med 0%nat) (nth (1 - a) med 0%nat)) as [q1 q2]; auto; [apply hm; lia|].
    split; [exact q1|]. split.
    - eapply close_ext; [reflexivity|symmetry; apply (near_ratio_2 _ _ _ (a := a)); auto|exact q2].
    - intros j hj hz. apply nth_In_iff in hj as (c & hc & e). rewrite hl in hc.
      assert (ez : v o (nth a med 0%nat) == 0).
      { pose proof (vpos HD ho (hm a ha2)) as hp. destruct (Nat.eq_dec c a) as [->|].
        - rewrite e. auto.
        - assert (ec : c = (1 - a)%nat) by lia. rewrite <- ec, e in hle. lra. }
      unfold ratio. destruct (nis_zero (D o (nth a med 0%nat))) eqn:en; [cbn [orb]; rewrite zero_val; reflexivity|].
      exfalso. pose proof (pos_entry HD ho (hm a ha2) en). lra.
  Qed.

  Lemma tab2_near med assi data (xs : list f64) s : length med = 2%nat -> inr n med -> tab2 n D med assi data xs ->
    reduce ladd xs = Some s -> loss_near n D med s.
  Proof.
    intros hl hin ht hs. destruct (tab2_terms hl hin ht) as [e h]. rewrite e in hs.
    destruct (@FloatSil.ratio_sum (fun o => nth o xs lzero) (fun o => near_ratio v o med) n Hn) as (s' & e' & h1 & h2).
    - apply fits_u32. auto.
    - intros o ho. destruct (h o ho) as (q1 & q2 & _). auto.
    - rewrite e' in hs. injection hs as <-. split; [exact h1|exact h2].
  Qed.

  (** the sum of ratios is at most the number of objects which are not at a given medoid *)
  Lemma far_sum (g : nat -> f64) s j :
    (forall o, (o < n)%nat -> within 0 1 (g o) /\ (v o j == 0 -> f64_val (g o) == 0)) ->
    reduce ladd (map g (seq 0 n)) = Some s -> f64_val s <= cnt (far j n).
  Proof.
    intros h hs.
    assert (h53 : fits53 n) by (apply fits_u32; auto).
    assert (hfold : forall t m a, (t + m <= n)%nat -> (1 <= t)%nat -> within 0 (cnt (far j t)) a ->
      within 0 (cnt (far j (t + m))) (fold_left ladd (map g (seq t m)) a)).
    { intros t m. revert t. induction m as [|m IH]; intros t a hle ht1 ha; cbn [seq map fold_left]; [rewrite Nat.add_0_r; auto|].
      replace (t + S m)%nat with (S t + m)%nat by lia. apply IH; [lia|lia|].
      destruct (h t ltac:(lia)) as (q1 & q3). rewrite far_S.
      pose proof (far_le j t) as hfl. assert (hf : fits53 (S (far j t))) by (unfold fits53 in *; lia).
      assert (u1 : forall q, q * 2 ^ 0 == q) by (intros q; change (2 ^ 0) with 1; ring).
      destruct (Qeq_bool (v t j) 0) eqn:ez.
      - apply Qeq_bool_iff in ez. specialize (q3 ez). destruct ha as (a1 & a2 & a3). destruct q1 as (b1 & b2 & b3).
        assert (hb : cnt (S (far j t)) <= 2 ^ 1023).
        { pose proof (@cnt_big (S (far j t)) 0 hf ltac:(lia)) as hb. change (2 ^ 0) with 1 in hb.
          assert (2 ^ 1022 <= 2 ^ 1023) by (apply pow2_le; lia). lra. }
        rewrite cnt_S in hb. assert (0 <= 2 ^ 1023) by (apply Qlt_le_weak; reflexivity).
        assert (hr : rounds (f64_val a + f64_val (g t)) (ladd a (g t))) by (apply add_rounds; auto; lra).
        split; [apply hr|]. split.
        + assert (hz : f64_val (lzero : f64) <= f64_val (ladd a (g t))) by (eapply rounds_ge; [exact hr|exact Logic.I|rewrite zero_val; lra]).
          rewrite zero_val in hz. exact hz.
        + eapply Qle_trans; [eapply rounds_le; [exact hr|exact a1|lra]|exact a3].
      - assert (ha0 : within 0 (cnt (far j t) * 2 ^ 0) a) by (eapply within_ext; [| |exact ha]; [reflexivity|symmetry; apply u1]).
        pose proof (@add_within_pos (far j t) 0 a (g t) hf ltac:(lia) ha0 q1) as hw.
        eapply within_ext; [| |exact hw]; [reflexivity|apply u1]. }
    revert hs. replace (seq 0 n) with (0%nat :: seq 1 (n - 1)) by (destruct n; [lia|]; cbn [seq Nat.sub]; rewrite Nat.sub_0_r; reflexivity).
    cbn [map reduce]. intros hs. injection hs as <-.
    destruct (hfold 1%nat (n - 1)%nat (g 0%nat)) as (_ & _ & h3); [lia|lia| |replace (1 + (n - 1))%nat with n in h3 by lia; exact h3].
    destruct (h 0%nat Hn) as ((b1 & b2 & b3) & q3). split; [exact b1|]. split; [exact b2|].
    change 1%nat with (S 0). rewrite far_S. change (far j 0) with 0%nat. destruct (Qeq_bool (v 0%nat j) 0) eqn:ez.
    - apply Qeq_bool_iff in ez. specialize (q3 ez). change (cnt 0) with 0. lra.
    - change (cnt 1) with 1. lra.
  Qed.

  Lemma far_less j : (j < n)%nat -> (far j n <= n - 1)%nat.
  Proof.
    intros hj. assert (hz : v j j == 0) by (apply (proj1 (diss_vals HD)); auto). assert (e : Qeq_bool (v j j) 0 = true) by (apply Qeq_bool_iff; exact hz).
    assert (h : forall t, (far j t + (if j <? t then 1 else 0) <= t)%nat).
    { induction t as [|t IH]; [cbn; lia|]. rewrite far_S.
      destruct (Nat.ltb_spec j t); destruct (Nat.ltb_spec j (S t)); try lia; [destruct (Qeq_bool (v t j) 0); lia| |destruct (Qeq_bool (v t j) 0); lia].
      assert (t = j) as -> by lia. rewrite e. lia. }
    specialize (h n). apply Nat.ltb_lt in hj. rewrite hj in h. lia.
  Qed.

  Lemma tab2_far med assi data (xs : list f64) s j : length med = 2%nat -> inr n med -> tab2 n D med assi data xs ->
    reduce ladd xs = Some s -> In j med -> f64_val s <= cnt (far j n).
  Proof.
    intros hl hin ht hs hj. destruct (tab2_terms hl hin ht) as [e h]. rewrite e in hs. clear e.
    apply (@far_sum (fun o => nth o xs lzero)) with (2 := hs). intros o ho. destruct (h o ho) as (q1 & _ & q3). split; [auto|].
    apply (q3 j hj).
  Qed.

  Lemma kg_loss2 s : k_good n D s -> loss_near n D (k_med s) (k_loss s).
  Proof. intros [[h1 h2 (xs & h3 & h4)] _]. eapply tab2_near; eauto. Qed.

  (** a swap which lowers the loss does not make the medoids equal *)
  Lemma swap2_nodup s j b x : k_good n D s -> (j < n)%nat -> slot2 (k_med s) j (x, b) -> f64_val x < f64_val (k_loss s) ->
    NoDup (set_nth (k_med s) b j) /\ (set_nth (k_med s) b j = k_med s \/ ~ In j (k_med s)).
  Proof.
    intros [[h1 h2 (xs & h3 & h4)] hnd] hj (q1 & _ & _ & q4) hlt. cbn [fst snd] in *.
    destruct (in_dec Nat.eq_dec j (k_med s)) as [hin|hni]; [|split; [apply NoDup_set_nth; auto|auto]].
    assert (hne : nth (1 - b) (k_med s) 0%nat <> j).
    { intros e. specialize (q4 e). pose proof (tab2_far j h1 h2 h3 h4 hin). lra. }
    assert (e : set_nth (k_med s) b j = k_med s).
    { apply nth_In_iff in hin as (c & hc & e). rewrite h1 in hc. assert (ec : c = b).
      { destruct (Nat.eq_dec c b) as [|hcb]; [auto|]. exfalso. apply hne. replace (1 - b)%nat with c by lia. exact e. }
      subst c. clear - h1 q1 e. destruct (k_med s) as [|m0 [|m1 [|]]]; try discriminate.
      destruct b as [|[|]]; [| |lia]; cbn [nth] in e; subst; reflexivity. }
    rewrite e. auto.
  Qed.

  Definition kstep_near := step_near (@k_med Nt f64) (@k_last Nt f64) (@k_swaps Nt f64) (@k_iter Nt f64)
    (rtot v n) (err3 n) (no_gain3 (err3 n)) (k_good n D).

  Lemma sum_err_pos : 0 <= sum_err n.
  Proof.
    unfold sum_err. pose proof (cnt_pos n). apply Qmult_le_0_compat; [apply Qlt_le_weak; reflexivity|].
    apply Qle_shift_div_l; [reflexivity|]. rewrite Qmult_0_l. apply Qmult_le_0_compat; lra.
  Qed.

  Lemma k2_cand_near s j : (j < n)%nat -> k_good n D s -> oks (k2_cand M s j) (kstep_near s j).
  Proof.
    intros hj hg. pose proof hg as [hi hnd]. pose proof hi as [i1 i2 (xs & ht & hr)].
    pose proof (kg_loss2 hg) as [(lf & _) [l1 l2]]. pose proof (sum_err_small Hn) as hse. pose proof sum_err_pos as hsp.
    assert (hfb : forall x b, find_best_swap_k2 M (k_data s) j = Ok (x, b) -> slot2 (k_med s) j (x, b)).
    { intros x b e. pose proof (find_best_swap_k2_near i1 i2 ht hj) as hb. apply oks_elim with (2 := e) in hb. exact hb. }
    eapply oks_mono; [apply (k2_cand_shape HM Hn hj hi)|].
    intros c [e1|a e1 e2 e3 e4|x b e1 e2 e3|x b assi' data' loss' e1 e2 e3 e4 e5 e6].
    - split; auto.
    - split; [auto|]. split; [auto|]. split; [auto|]. left. split; [auto|]. intros hni. exfalso. apply hni.
      rewrite <- e3. apply nth_In. lia.
    - split; [auto|]. split; [auto|]. split; [auto|]. left. split; [auto|]. intros hni c' hc. rewrite i1 in hc.
      destruct (hfb _ _ e2) as (q1 & [(q2 & _) _] & q3 & _). cbn [fst snd] in *.
      apply f64_lleb in e3; auto. specialize (q3 c' hc). unfold gain. lra.
    - pose proof (hfb _ _ e2) as hs. pose proof hs as (q1 & [(q2 & _) [q3 q3']] & _). cbn [fst snd] in *.
      apply f64_lleb_false in e4; auto.
      destruct (swap2_nodup hg hj hs e4) as [n1 n2].
      split; [constructor; auto|]. split; [auto|]. split; [auto|]. right. cbn [k_med k_last k_swaps].
      split; [auto|]. split; [auto|]. split.
      + rewrite <- (nth_set_nth_eq (k_med s) j 0%nat (i := b)) at 1 by lia. apply nth_In. rewrite length_set_nth. lia.
      + rewrite swap_set_nth in q3, q3' by lia. lra.
  Qed.

  Lemma fastermsc_k2_near maxiter (s0 : kst Nt f64) :
    k_good n D s0 -> k_last s0 = n -> k_swaps s0 = 0%nat -> k_iter s0 = 0%nat ->
    oks (whileM maxiter (k2_iteration M) s0) (fun s =>
      k_good n D s /\ rtot v n (k_med s) <= f64_val (k_loss s0) + sum_err n + cnt n * err3 n /\
      (k_swaps s = 0%nat -> (1 <= maxiter)%nat -> nearly3 n D (err3 n) (k_med s)) /\
      ((k_iter s < maxiter)%nat -> nearly3 n D (err3 n) (k_med s) \/
         exists i s1, k_iter s = S i /\ k_good n D s1 /\ whileM i (k2_iteration M) s0 = Ok s1 /\
           f64_val (k_loss s1) <= f64_val (k_loss s))).
  Proof.
    intros hc hl hs hi.
    pose proof (@passes (kst Nt f64) (@k_med Nt f64) (@k_last Nt f64) (@k_swaps Nt f64) (@k_iter Nt f64) (@k_loss Nt f64)
      (@kinc Nt f64) (fun _ => eq_refl) (fun _ => eq_refl) (fun _ => eq_refl) (fun _ => eq_refl) n (rtot v n) (err3 n) (sum_err n)
      (err3_pos n) (no_gain3 (err3 n))) as hp.
    assert (h1 : forall (m : list nat) j, In j m -> no_gain3 (err3 n) m j) by (intros m j h hni; contradiction).
    assert (h2 : forall s, k_good n D s -> k_good n D (kinc s)).
    { intros s h. apply kinc_good. auto. }
    assert (h3 : forall s, k_good n D s -> f64_finite (k_loss s) /\ close (sum_err n) (rtot v n (k_med s)) (k_loss s)).
    { intros s h. destruct (kg_loss2 h) as [[q _] q']. auto. }
    specialize (hp h1 (k_good n D) h2 h3 (k2_cand M)).
    assert (h4 : forall s j, (j < n)%nat -> k_good n D s -> oks (k2_cand M s j) (kstep_near s j)).
    { intros s j hj h. apply k2_cand_near; auto. }
    specialize (hp h4 maxiter s0 hc hl hs hi).
    assert (hbody : forall i, whileM i (pass (@k_swaps Nt f64) (@k_loss Nt f64) (@kinc Nt f64) n (k2_cand M)) s0 = whileM i (k2_iteration M) s0).
    { intros i. unfold k2_iteration. rewrite (len_n HM). reflexivity. }
    rewrite hbody in hp. eapply oks_mono; [exact hp|].
    intros s (a1 & a2 & a3 & a4). split; [auto|]. split; [auto|]. split.
    - intros h5 h6. apply no_gain3_nearly. auto.
    - intros h5. destruct (a4 h5) as [h6|(i & s1 & h6 & h7 & h8 & h9)]; [left; apply no_gain3_nearly; auto|right].
      exists i, s1. rewrite hbody in h8. auto.
  Qed.

  (** ** fastmsc with two medoids *)
  Definition best2_near (st : kst Nt f64) (t : nat) (best : f64 * option (nat * nat)) : Prop :=
    match snd best with
    | None => fst best = lzero /\ forall j, (j < t)%nat -> skipped st j
    | Some (b, j) => (j < n)%nat /\ slot2 (k_med st) j (fst best, b) /\
        (forall j' c, (j' < t)%nat -> evald st j' -> (c < 2)%nat -> f64_val (fst best) <= rtot v n (swap (k_med st) c j') + sum_err n)
    end.

  Lemma fastmsc_k2_cand_near st best j :
    (j < n)%nat -> k_good n D st -> best2_near st j best -> oks (fastmsc_k2_cand M st best j) (best2_near st (S j)).
  Proof.
    intros hj [[i1 i2 (xs & ht & hr)] hnd] hb. unfold fastmsc_k2_cand.
    destruct (tab2_get ht hj) as (a & d & x & ha & hd & hx & hobj).
    rewrite (idx_some _ _ ha). cbn [bind]. destruct hobj as (ha2 & _).
    rewrite idx_nth with (d := 0%nat) by lia. cbn [bind].
    destruct (j =? nth a (k_med st) 0)%nat eqn:e2.
    { apply Nat.eqb_eq in e2. cbn [oks].
      assert (hsk : skipped st j) by (unfold skipped; rewrite (nth_error_nth _ _ 0%nat ha); auto).
      unfold best2_near in *. destruct (snd best) as [[b' j']|].
      - destruct hb as (q1 & q2 & q3). split; [auto|]. split; [auto|].
        intros j2 c hj2 hev hc. destruct (Nat.eq_dec j2 j) as [->|]; [contradiction|]. apply q3; auto. lia.
      - destruct hb as [hb1 hb2]. split; auto. intros j' hj'. destruct (Nat.eq_dec j' j) as [->|]; auto.
        apply hb2. lia. }
    pose proof (find_best_swap_k2_near i1 i2 ht hj) as hf.
    apply oks_inv in hf as ([nl b] & -> & hs). cbn [bind oks].
    pose proof hs as (f1 & [(f2 & _) _] & f3 & _). cbn [fst snd] in *.
    unfold best2_near in *. destruct (snd best) as [[b' j']|] eqn:es.
    - destruct hb as (q1 & q2 & q3). pose proof q2 as (_ & [(q4 & _) _] & _). cbn [fst snd] in *.
      destruct (lltb nl (fst best)) eqn:el.
      + apply f64_lltb in el; auto. cbn [fst snd]. split; [auto|]. split; [auto|].
        intros j2 c hj2 hev2 hc. destruct (Nat.eq_dec j2 j) as [->|]; [auto|].
        specialize (q3 j2 c ltac:(lia) hev2 hc). lra.
      + rewrite es. apply f64_lltb_false in el; auto. split; [auto|]. split; [auto|].
        intros j2 c hj2 hev2 hc. destruct (Nat.eq_dec j2 j) as [->|]; [specialize (f3 c hc); lra|].
        apply q3; auto. lia.
    - destruct hb as [hb1 hb2]. cbn [fst snd]. split; [auto|]. split; [auto|].
      intros j2 c hj2 hev2 hc. destruct (Nat.eq_dec j2 j) as [->|]; [auto|].
      exfalso. apply hev2. apply hb2. lia.
  Qed.

  Lemma fastmsc_k2_iteration_near st : (2 <= n)%nat -> k_good n D st ->
    oks (fastmsc_k2_iteration M st) (fun c => match c with
      | Next s => k_good n D s /\ k_iter s = S (k_iter st) /\ f64_val (k_loss s) <= f64_val (k_loss st)
      | Break s => k_iter s = S (k_iter st) /\ k_loss s = k_loss st /\ stopped3 n D 2 (k_med s) (k_loss s)
      end).
  Proof.
    intros hn2 hg. unfold fastmsc_k2_iteration. fold (kinc st). rewrite (len_n HM).
    pose proof (kinc_good hg) as hg1. pose proof (kg_loss2 hg) as hloss.
    pose proof hloss as [(lf & _) [l1 l2]]. pose proof hg as [[i1 i2 (xs & ht & hr)] hnd].
    pose proof (sum_err_small Hn) as hse. pose proof sum_err_pos as hsp. pose proof (eps3_err n) as hee. pose proof (err3_pos n) as hep.
    eapply oks_bind with (P := best2_near (kinc st) n).
    - apply foldM_seq with (I := best2_near (kinc st)).
      + split; auto. intros; lia.
      + intros j best hj hb. apply fastmsc_k2_cand_near; auto.
    - intros best hb. cbn [kinc k_med k_loss k_assi k_data k_swaps k_iter k_last] in *.
      assert (hopt : (forall j c, (j < n)%nat -> ~ In j (k_med st) -> (c < 2)%nat ->
                f64_val (k_loss st) <= rtot v n (swap (k_med st) c j) + sum_err n + 2 * err3 n) -> nearly3 n D (eps3 n) (k_med st)).
      { intros h b j hb' hj hni. rewrite i1 in hb'. specialize (h j b hj hni hb'). unfold gain. lra. }
      assert (hkeep : nearly3 n D (eps3 n) (k_med st) -> stopped3 n D 2 (k_med st) (k_loss st)).
      { intros h. exists (k_med st). split; [split; auto|]. split; [auto|]. split; [auto|]. split; [auto|]. lra. }
      destruct (lltb (fst best) (k_loss st)) eqn:e; cbn [negb].
      + unfold best2_near in hb. destruct (snd best) as [[b j]|] eqn:es.
        * cbn [kinc k_med] in hb. destruct hb as (hj & hs & hbest).
          pose proof hs as (q1 & [(q2 & _) [q3 q3']] & _). cbn [fst snd] in *.
          apply f64_lltb in e; auto. destruct (swap2_nodup hg hj hs e) as [n1 n2].
          pose proof (do_swap_k2_shape (Lt := f64) HM Hn i1 ht q1 hj) as hsw.
          apply oks_inv in hsw as ([[[med' assi'] data'] loss'] & -> & -> & xs' & ht' & hr'). cbn [bind].
          assert (hi' : inr n (set_nth (k_med st) b j)) by (apply inr_set_nth; auto).
          assert (hl' : length (set_nth (k_med st) b j) = 2%nat) by (rewrite length_set_nth; auto).
          pose proof (tab2_near hl' hi' ht' hr') as hloss'. pose proof hloss' as [(lf' & _) [l1' l2']].
          rewrite swap_set_nth in q3, q3' by lia.
          destruct (lltb loss' (k_loss st)) eqn:e2; cbn [negb oks k_med k_loss k_iter].
          -- apply f64_lltb in e2; auto. split; [|split; [auto|lra]].
             constructor; [constructor|]; cbn [k_med k_assi k_data k_loss]; eauto.
          -- apply f64_lltb_false in e2; auto. split; [auto|]. split; [auto|].
             assert (hno : nearly3 n D (eps3 n) (k_med st)).
             { apply hopt. intros j' c hj' hni hc. pose proof (not_in_evald hg1 (j := j') hj' hni) as hev.
               specialize (hbest j' c hj' hev hc). lra. }
             exists (k_med st). split; [split; auto|]. split; [exact hno|]. split; [|split; [exact hloss|lra]].
             destruct n2 as [n2|n2]; [left; auto|right]. exists b, j. split; [auto|]. split; [auto|]. split; [auto|].
             symmetry. apply swap_set_nth. lia.
        * exfalso. destruct hb as [hb1 hb2]. rewrite hb1 in e.
          pose proof (all_skipped_loss Hdg (zero_is_zero (Nt := Nt)) hn2 (kg_inv hg1) hb2) as hz.
          cbn [kinc k_loss] in hz. rewrite hz in e. discriminate e.
      + cbn [oks k_iter k_loss k_med kinc]. split; [auto|]. split; [auto|]. apply hkeep, hopt.
        intros j c hj hni hc. pose proof (not_in_evald hg1 (j := j) hj hni) as hev.
        unfold best2_near in hb. destruct (snd best) as [[b0 j0]|].
        * cbn [kinc k_med] in hb. destruct hb as (q1 & q2 & q3). pose proof q2 as (_ & [(q4 & _) _] & _). cbn [fst snd] in *.
          apply f64_lltb_false in e; auto. specialize (q3 j c hj hev hc). lra.
        * exfalso. destruct hb as [_ hb2]. apply hev. apply hb2. auto.
  Qed.

  Lemma fastmsc_k2_near maxiter (st : kst Nt f64) : (2 <= n)%nat -> k_good n D st -> k_iter st = 0%nat ->
    oks (whileM maxiter (fastmsc_k2_iteration M) st) (fun s => ended3 n D 2 maxiter (k_loss st) (k_med s) (k_loss s) (k_iter s)).
  Proof.
    intros hn2 hg hit. remember (k_loss st) as L0 eqn:eL.
    apply whileM_oks with (I := fun i s => k_good n D s /\ k_iter s = i /\ f64_val (k_loss s) <= f64_val L0).
    - rewrite <- eL. split; [auto|]. split; [auto|]. lra.
    - clear st hg hit eL. intros i s hlt (hg & hit & hL).
      eapply oks_mono; [apply (fastmsc_k2_iteration_near hn2 hg)|]. intros [s'|s'].
      + intros (q1 & q2 & q3). split; [auto|]. split; [congruence|lra].
      + intros (q1 & q2 & q3). apply ended_stopped; [rewrite q2|]; auto.
    - intros s (q1 & q2 & q3). rewrite q2. apply ended_limit; auto. apply kg_loss2. auto.
  Qed.
End Msc2.
