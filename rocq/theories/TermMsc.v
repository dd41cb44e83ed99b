(** TermMsc.v -- likewise for the algorithms which optimise the medoid silhouette, and for pam with
    its initialisation. *)
From Coq Require Import ZArith QArith Lqa Lia.
From Verif Require Import Base Num M_Mat M_Util M_Fasterpam M_Pam M_Silhouette M_Msc M_Pammedsil Hoare
  Spec SpecFacts Laws PamShape Reference LocalSearch FpFacts ChooseFacts PamFacts BuildFacts MscShape MscFacts MscK2
  BuildMsc Term.
Set Implicit Arguments.
Open Scope nat_scope.

Section Stop.
  Context {Nt Lt : Type} `{HRO : RatioOrder Nt Lt}.
  Variable M : Mat Nt.
  Variable n : nat.
  Variable D : nat -> nat -> Nt.
  Hypothesis HD : diss_matrix M n D.
  Local Notation v := (vals D).
  Let HM : is_matrix M n D := proj1 HD.
  Let Hdg : Dg n D := proj2 (emb_vals HD).
  Let Hemb : Emb n D v := proj1 (emb_vals HD).
  Hypothesis Hsame : same_losses (Lt := Lt) n D.
  Hypothesis Hratios : ratios_ok (Lt := Lt) n D.

  Lemma zero_is_zero : nis_zero (nzero : Nt) = true.
  Proof. apply nis_zero_spec; [apply okN_zero|apply vN_zero]. Qed.

  Lemma nis_zero_entry o x : o < n -> x < n -> nis_zero (D o x) = Qeq_bool (v o x) 0.
  Proof.
    intros ho hx. destruct (proj2 (proj2 HD) o x ho hx) as [h1 h2]. pose proof (nis_zero_spec (D o x) h1) as h.
    destruct (nis_zero (D o x)).
    - symmetry. apply Qeq_bool_iff. apply h. auto.
    - destruct (Qeq_bool (v o x) 0) eqn:e; [|auto]. apply Qeq_bool_iff in e. apply h. exact e.
  Qed.

  Lemma ratio_same o x y x' y' : o < n -> x < n -> y < n -> x' < n -> y' < n ->
    (v o x == v o x')%Q -> (v o y == v o y')%Q -> ratio (D o x) (D o y) = (ratio (D o x') (D o y') : Lt).
  Proof.
    intros ho hx hy hx' hy' e1 e2. unfold ratio. rewrite !nis_zero_entry by auto.
    assert (c : forall p q : Q, (p == q)%Q -> Qeq_bool p 0 = Qeq_bool q 0).
    { intros p q e. destruct (Qeq_bool p 0) eqn:ep; destruct (Qeq_bool q 0) eqn:eq; auto.
      - apply Qeq_bool_iff in ep. apply Qeq_bool_neq in eq. destruct eq. rewrite <- e. auto.
      - apply Qeq_bool_iff in eq. apply Qeq_bool_neq in ep. destruct ep. rewrite e. auto. }
    rewrite (c _ _ e1), (c _ _ e2).
    rewrite (Hsame ho hx hx' e1), (Hsame ho hy hy' e2). auto.
  Qed.

  Lemma ratio_ok o x y : o < n -> x < n -> y < n -> okL (ratio (D o x) (D o y) : Lt).
  Proof.
    intros ho hx hy. unfold ratio. rewrite !nis_zero_entry by auto.
    destruct (Qeq_bool (v o x) 0) eqn:e1; cbn [orb]; [apply okL_zero|].
    destruct (Qeq_bool (v o y) 0) eqn:e2; [apply okL_zero|].
    destruct (proj2 (proj2 HD) o x ho hx) as [h1 h2]. destruct (proj2 (proj2 HD) o y ho hy) as [h3 h4].
    apply Qeq_bool_neq in e1. apply Qeq_bool_neq in e2.
    apply Hratios; auto; unfold vals in *; apply Qle_lteq in h2; apply Qle_lteq in h4;
      [destruct h2 as [h2|h2]; [exact h2|rewrite h2 in e1; destruct e1; reflexivity]
      |destruct h4 as [h4|h4]; [exact h4|rewrite h4 in e2; destruct e2; reflexivity]].
  Qed.

  (** ** three or more medoids (two in pammedsil) *)
  Definition msF (med : list nat) : Lt :=
    match initial_assignment3 M med with Ok (l, _) => l | Panic _ => lzero end.

  Lemma ratio_entry med data o r : data3_ok n D True med data -> nth_error data o = Some r ->
    exists a b, a < length med /\ b < length med /\ a <> b /\
      rec_ratio (Lt := Lt) r = ratio (D o (nth a med 0)) (D o (nth b med 0)) /\
      (forall c, c < length med -> (v o (nth a med 0%nat) <= v o (nth c med 0%nat))%Q) /\
      (forall c, c < length med -> c <> a -> (v o (nth b med 0%nat) <= v o (nth c med 0%nat))%Q).
  Proof.
    intros [hl hd] hr. destruct (hd o r hr) as (a & b & ha & hb & hab & [_ da] & [_ db] & hm & _).
    exists a, b. split; [auto|]. split; [auto|]. split; [auto|].
    split; [unfold rec_ratio; rewrite (da Hdg), (db Hdg); auto|]. apply (hm I Hdg v Hemb).
  Qed.

  Lemma ratio_sum_unique med d1 d2 : inr n med -> data3_ok n D True med d1 -> data3_ok n D True med d2 ->
    ratio_sum (Lt := Lt) d1 = ratio_sum d2.
  Proof.
    intros hin h1 h2. unfold ratio_sum. f_equal. apply nth_ext with (d := lzero) (d' := lzero).
    { rewrite !map_length. destruct h1, h2. congruence. }
    intros o ho. rewrite map_length in ho. destruct (nth_error_ex d1 (i := o)) as [r1 e1]; [auto|].
    destruct (nth_error_ex d2 (i := o)) as [r2 e2]; [destruct h1, h2; lia|].
    rewrite (nth_error_nth (map _ d1) o lzero (x := rec_ratio r1)) by (rewrite nth_error_map, e1; auto).
    rewrite (nth_error_nth (map _ d2) o lzero (x := rec_ratio r2)) by (rewrite nth_error_map, e2; auto).
    destruct (ratio_entry o h1 e1) as (a & b & ha & hb & hab & -> & ma & mb).
    destruct (ratio_entry o h2 e2) as (a' & b' & ha' & hb' & hab' & -> & ma' & mb').
    assert (hon : o < n) by (destruct h1; lia).
    apply ratio_same; try apply inr_nth; auto.
    - specialize (ma a' ha'). specialize (ma' a ha). lra.
    - destruct (Nat.eq_dec a a') as [<-|hne].
      + specialize (mb b' hb' ltac:(auto)). specialize (mb' b hb ltac:(auto)). lra.
      + pose proof (ma a' ha'). pose proof (ma' a ha).
        pose proof (mb a' ha' ltac:(auto)). pose proof (mb' a ha ltac:(auto)).
        pose proof (ma b' hb'). pose proof (ma' b hb). lra.
  Qed.

  Lemma ratio_sum_ok med data x : inr n med -> data3_ok n D True med data ->
    ratio_sum data = Some (x : Lt) -> okL x.
  Proof.
    intros hin hd. apply reduce_ok. intros y hy. apply in_map_iff in hy as (r & <- & hr).
    apply In_nth_error in hr as [o hr]. destruct (ratio_entry o hd hr) as (a & b & ha & hb & _ & -> & _).
    apply ratio_ok; try apply inr_nth; auto. apply nth_error_lt in hr. destruct hd; lia.
  Qed.

  Lemma msF_data med : sizes n (length med) -> inr n med -> 2 <= length med ->
    exists data, data3_ok n D True med data /\ ratio_sum data = Some (msF med).
  Proof.
    intros hs hin hk. pose proof (initial_assignment3_ok (Lt := Lt) HM True hs hin hk) as h.
    apply oks_inv in h as ([loss data] & e & hd & hsum & _). unfold msF. rewrite e. eauto.
  Qed.

  Lemma msF_ok med : sizes n (length med) -> inr n med -> 2 <= length med -> okL (msF med).
  Proof.
    intros hs hin hk. destruct (msF_data hs hin hk) as (data & hd & e). eapply ratio_sum_ok; eauto.
  Qed.

  Lemma msF_unique med data x : sizes n (length med) -> inr n med -> 2 <= length med ->
    data3_ok n D True med data -> ratio_sum data = Some x -> x = msF med.
  Proof.
    intros hs hin hk hd e. destruct (msF_data hs hin hk) as (data' & hd' & e').
    rewrite (ratio_sum_unique hin hd hd') in e. congruence.
  Qed.

  (** fastermsc *)
  Definition m_known (X : Prop) (k : nat) (st : mst Nt Lt) : Prop :=
    m_inv n D X k st /\ ratio_sum (m_data st) = Some (m_loss st).

  Lemma msc_iteration_next X k st : 1 <= n -> 2 <= k -> m_known X k st ->
    oks (msc_iteration M st) (fun c => match c with
      | Next s => m_known X k s /\ lleb (m_loss st) (m_loss s) = false
      | Break s => m_known X k s end).
  Proof.
    intros hn hk [hi hs]. unfold msc_iteration. rewrite (len_n HM).
    eapply oks_bind.
    - apply forM_inv with (I := m_known X k).
      + split; [destruct hi; constructor; auto|auto].
      + intros j s hj [his hss]. apply in_seq in hj. assert (hjn : j < n) by lia.
        eapply oks_mono; [apply (msc_cand_ok HM) with (X := X) (k := k); auto; exact his|].
        intros [s'|s'] hc; pose proof (mcand_step_inv HM hn hk hjn his hc) as hc'; (split; [exact hc'|]);
          inversion hc as [|r a e1 e2 e3 e4|ch b e1 e2 e3|r a ch b data' rl' loss' e1 e2 e3 e4 e5 e6 e7 e8 e9];
          subst; auto.
        destruct his as [i1 i2 i3 i4].
        assert (hk' : 2 <= length (m_med s)) by lia.
        pose proof (do_swap3_ok (Lt := Lt) HM hn i2 hjn e7 hk' i3) as hs1.
        apply oks_elim with (2 := e8) in hs1. destruct hs1 as (_ & s1 & s2 & s3 & _).
        cbn [m_data m_loss]. rewrite <- s2. symmetry. apply ratio_sum0_ratio_sum; [apply zero_is_zero|].
        intros r0 hr0. rewrite (s3 r0 hr0). auto.
    - intros s hks. destruct (_ =? _); cbn [orb oks]; [auto|].
      destruct (lleb (m_loss st) (m_loss s)) eqn:e; cbn [oks]; auto.
  Qed.

  (** fastmsc, pammedsil *)
  Definition q_known (k : nat) (st : mst Nt Lt) : Prop :=
    q_inv n D k st /\ ratio_sum (m_data st) = Some (m_loss st).

  Let Hirr : lltb (lzero : Lt) lzero = false.
  Proof.
    destruct (lltb (lzero : Lt) lzero) eqn:e; [|auto]. apply lltb_lleb in e; try apply okL_zero.
    rewrite lleb_refl in e by apply okL_zero. discriminate.
  Qed.

  (** the loss before does not matter *)
  Lemma swap_best3_next k st rl best s : 1 <= n -> 2 <= k -> q_inv n D k st -> best_valid n k best ->
    swap_best3 M st rl best = Ok (Next s) ->
    q_known k s /\ m_rl s = rl /\ lleb (m_loss st) (m_loss s) = false.
  Proof.
    intros hn hk hi hb e. pose proof (swap_best3_shape HM Hirr rl best hn hk hi hb) as hsh. rewrite e in hsh.
    cbn [oks] in hsh. destruct hsh as (g1 & g2 & _). unfold swap_best3 in e.
    destruct (lltb lzero (fst best)); [|discriminate]. unfold best_valid in hb.
    destruct (snd best) as [[b j]|]; [|discriminate]. destruct hb as [hb hj]. destruct hi as [i1 i2 i3].
    assert (hb' : b < length (m_med st)) by lia. assert (hk' : 2 <= length (m_med st)) by lia.
    pose proof (do_swap3_ok (Lt := Lt) HM hn i2 hj hb' hk' i3) as hd.
    apply oks_inv in hd as ([[med' data'] loss'] & ed & -> & s1 & s2 & s3 & _).
    rewrite ed in e. cbn [bind] in e. destruct (lleb (m_loss st) loss') eqn:el; [discriminate|].
    injection e as <-. split; [split; [exact g1|]|split; [exact g2|exact el]].
    cbn [m_data m_loss]. rewrite <- s2. symmetry. apply ratio_sum0_ratio_sum; [apply zero_is_zero|].
    intros r0 hr0. rewrite (s3 r0 hr0). auto.
  Qed.

  Lemma fastmsc_next k st s : 1 <= n -> 2 <= k -> q_inv n D k st -> length (m_rl st) = k ->
    fastmsc_iteration M st = Ok (Next s) ->
    (q_known k s /\ length (m_rl s) = k) /\ lleb (m_loss st) (m_loss s) = false.
  Proof.
    intros hn hk hi hl. unfold fastmsc_iteration. cbn [m_med m_data m_rl m_loss m_last m_swaps m_iter].
    set (st1 := mkM (m_med st) (m_data st) (m_rl st) (m_loss st) (m_last st) (m_swaps st) (S (m_iter st))).
    assert (hi1 : q_inv n D k st1) by (destruct hi; constructor; auto). pose proof hi as [i1 i2 i3].
    assert (hu : oks (update_removal_loss3 (m_data st) (m_rl st)) (fun rl => length rl = length (m_med st))).
    { eapply update_removal_loss3_len; eauto. congruence. }
    apply oks_inv in hu as (rl & -> & hrl). cbn [bind].
    assert (hf : oks (foldM (fastmsc_cand M (m_med st) (m_data st) rl) (seq 0 (mlen M)) (lzero, None)) (best_valid n k)).
    { apply foldM_inv; [reflexivity|]. intros j best hj hb. apply in_seq in hj.
      rewrite (len_n HM) in hj. apply (@fastmsc_cand_shape _ _ _ _ _ M n D HM k st1); auto; lia. }
    apply oks_inv in hf as (best & -> & hb). cbn [bind]. intros e.
    destruct (@swap_best3_next k st1 rl best s hn hk hi1 hb e) as (a1 & a2 & a3).
    split; [split; [exact a1|congruence]|exact a3].
  Qed.

  Lemma pms_next k st s : 1 <= n -> 2 <= k -> q_inv n D k st -> pms_iteration M st = Ok (Next s) ->
    q_known k s /\ lleb (m_loss st) (m_loss s) = false.
  Proof.
    intros hn hk hi. unfold pms_iteration. cbn [m_med m_data m_rl m_loss m_last m_swaps m_iter].
    set (st1 := mkM (m_med st) (m_data st) (m_rl st) (m_loss st) (m_last st) (m_swaps st) (S (m_iter st))).
    assert (hi1 : q_inv n D k st1) by (destruct hi; constructor; auto).
    assert (hf : oks (foldM (pms_cand M (m_med st) (m_data st)) (seq 0 (mlen M)) (lzero, None)) (best_valid n k)).
    { apply foldM_inv; [reflexivity|]. intros j best hj hb. apply in_seq in hj.
      rewrite (len_n HM) in hj. apply (@pms_cand_shape _ _ _ _ _ M n D HM k st1); auto; lia. }
    apply oks_inv in hf as (best & -> & hb). cbn [bind]. intros e.
    destruct (@swap_best3_next k st1 (m_rl st) best s hn hk hi1 hb e) as (a1 & a2 & a3). auto.
  Qed.

  Lemma msF_known k st : 2 <= k -> sizes n k -> q_known k st ->
    length (m_med st) = k /\ inr n (m_med st) /\ m_loss st = msF (m_med st).
  Proof.
    intros hk hs [[i1 i2 i3] hss]. split; [auto|]. split; [auto|].
    apply msF_unique with (m_data st); auto; rewrite i1; auto.
  Qed.

  (** ** two medoids *)
  Definition k2F (med : list nat) : Lt :=
    match initial_assignment_k2 M med with Ok (l, _, _) => l | Panic _ => lzero end.

  Lemma obj2_entry med o a d (x : Lt) : length med = 2 -> inr n med -> o < n -> obj2 D med o a d x ->
    a < 2 /\ x = ratio (D o (nth a med 0)) (D o (nth (1 - a) med 0)) /\
    (v o (nth a med 0%nat) <= v o (nth (1 - a) med 0%nat))%Q.
  Proof.
    intros hl hin ho (h1 & h2 & h3 & h4 & h5). destruct d as [d0 d1]. cbn [fst snd] in *.
    apply (dat_exact HD) in h2; auto. apply (dat_exact HD) in h3; auto. subst d0 d1.
    assert (hm : forall c, c < 2 -> nth c med 0 < n) by (intros; apply inr_nth; auto; lia).
    pose proof (proj2 (proj2 HD)) as hok.
    assert (ep : (if a =? 0 then D o (nth 0 med 0) else D o (nth 1 med 0)) = D o (nth a med 0))
      by (destruct a as [|[|]]; auto; lia).
    assert (eq : (if a =? 0 then D o (nth 1 med 0) else D o (nth 0 med 0)) = D o (nth (1 - a) med 0))
      by (destruct a as [|[|]]; auto; lia).
    rewrite ep, eq in *. split; [auto|]. split.
    - destruct h4 as [->|(e & h4 & ->)]; [auto|]. rewrite h4. unfold ratio. rewrite zero_is_zero. auto.
    - unfold vals. destruct (hok o (nth a med 0)) as [k1 k2]; auto.
      destruct (hok o (nth (1 - a) med 0)) as [k3 k4]; [auto|apply hm; lia|].
      destruct h5 as [h5|[h5|[h5|[_ h5]]]].
      + apply nltb_spec in h5; auto. lra.
      + apply neqb_spec in h5; auto. lra.
      + apply Qnot_lt_le. intros c. apply nltb_spec in c; auto. congruence.
      + rewrite h5, vN_zero. exact k4.
  Qed.

  Lemma tab2_unique med a1 d1 x1 a2 d2 (x2 : list Lt) : length med = 2 -> inr n med ->
    tab2 n D med a1 d1 x1 -> tab2 n D med a2 d2 x2 -> x1 = x2.
  Proof.
    intros hl hin h1 h2. pose proof h1 as (_ & _ & l1 & _). pose proof h2 as (_ & _ & l2 & _).
    apply nth_ext with (d := lzero) (d' := lzero); [congruence|]. intros o ho. rewrite l1 in ho.
    destruct (tab2_get h1 ho) as (a & d & x & _ & _ & ex & hx).
    destruct (tab2_get h2 ho) as (a' & d' & x' & _ & _ & ex' & hx').
    rewrite (nth_error_nth _ _ lzero ex), (nth_error_nth _ _ lzero ex').
    destruct (obj2_entry hl hin ho hx) as (ha & -> & m). destruct (obj2_entry hl hin ho hx') as (ha' & -> & m').
    assert (hm : forall c, c < 2 -> nth c med 0 < n) by (intros; apply inr_nth; auto; lia).
    destruct (Nat.eq_dec a a') as [<-|hne]; [auto|].
    assert (ea : a' = 1 - a) by lia. assert (ea' : 1 - a' = a) by lia. rewrite ea' in *. rewrite ea in *.
    apply ratio_same; try apply hm; auto; try lia; lra.
  Qed.

  Lemma tab2_ok med assi data xs (x : Lt) : length med = 2 -> inr n med -> tab2 n D med assi data xs ->
    reduce ladd xs = Some x -> okL x.
  Proof.
    intros hl hin ht. apply reduce_ok. intros y hy. apply In_nth_error in hy as [o ho].
    assert (hon : o < n) by (destruct ht as (_ & _ & l1 & _); rewrite <- l1; apply nth_error_lt in ho; auto).
    destruct (tab2_get ht hon) as (a & d & x' & _ & _ & ex & hx). rewrite ho in ex. injection ex as <-.
    destruct (obj2_entry hl hin hon hx) as (ha & -> & _). apply ratio_ok; auto; apply inr_nth; auto; lia.
  Qed.

  Lemma k2F_known med assi data xs x : sizes n 2 -> length med = 2 -> inr n med -> tab2 n D med assi data xs ->
    reduce ladd xs = Some x -> x = k2F med /\ okL x.
  Proof.
    intros hs hl hin ht e. split; [|eapply tab2_ok; eauto].
    pose proof (initial_k2_shape (Lt := Lt) HM hs hin hl) as h.
    apply oks_inv in h as ([[loss assi'] data'] & e1 & xs' & ht' & hr). cbn [fst snd] in *.
    unfold k2F. rewrite e1. rewrite (tab2_unique hl hin ht ht') in e. congruence.
  Qed.

  Lemma k2F_ok med : sizes n 2 -> length med = 2 -> inr n med -> okL (k2F med).
  Proof.
    intros hs hl hin. pose proof (initial_k2_shape (Lt := Lt) HM hs hin hl) as h.
    apply oks_inv in h as ([[loss assi'] data'] & e1 & xs' & ht' & hr). cbn [fst snd] in *.
    destruct (k2F_known hs hl hin ht' hr) as [<- h]. exact h.
  Qed.

  Lemma k2_inv_known st : sizes n 2 -> k_inv n D st ->
    length (k_med st) = 2 /\ inr n (k_med st) /\ k_loss st = k2F (k_med st).
  Proof.
    intros hs [i1 i2 (xs & ht & hr)]. split; [auto|]. split; [auto|]. eapply k2F_known; eauto.
  Qed.

  Lemma k2_iteration_next st : 1 <= n -> k_inv n D st ->
    oks (k2_iteration (Lt := Lt) M st) (fun c => match c with
      | Next s => k_inv n D s /\ lleb (k_loss st) (k_loss s) = false
      | Break s => k_inv n D s end).
  Proof.
    intros hn hi. unfold k2_iteration. rewrite (len_n HM).
    eapply oks_bind.
    - apply forM_inv with (I := k_inv n D).
      + apply k_inv_inc; auto.
      + intros j s hj his. apply in_seq in hj. eapply oks_mono; [apply (k2_cand_shape HM); auto; lia|].
        intros [s'|s'] hc; [eapply kcand_step_inv; eauto|]. inversion hc; subst; auto.
    - intros s hks. destruct (_ =? _); cbn [orb oks]; [auto|].
      destruct (lleb (k_loss st) (k_loss s)) eqn:e; cbn [oks]; auto.
  Qed.

  Let Hsum0 : lltb (lzero : Lt) (ladd lzero lzero) = false.
  Proof.
    destruct (lltb (lzero : Lt) (ladd lzero lzero)) eqn:e; [|auto].
    apply lltb_lleb in e; [|apply okL_zero|apply okL_add; apply okL_zero].
    rewrite zero_zero_le in e. discriminate.
  Qed.

  Lemma fastmsc_k2_next st s : 2 <= n -> sizes n 2 -> k_inv n D st -> fastmsc_k2_iteration (Lt := Lt) M st = Ok (Next s) ->
    k_inv n D s /\ lleb (k_loss st) (k_loss s) = false.
  Proof.
    intros hn hs hi e. pose proof (fastmsc_k2_iteration_shape HM Hdg zero_is_zero Hsum0 hn hi) as h.
    rewrite e in h. destruct h as [h _]. split; [exact h|].
    assert (o1 : okL (k_loss st)) by (destruct hi as [i1 i2 (xs & ht & hr)]; eapply tab2_ok; eauto).
    assert (o2 : okL (k_loss s)) by (destruct h as [i1 i2 (xs & ht & hr)]; eapply tab2_ok; eauto).
    apply lltb_lleb; auto. clear o1 o2 h. unfold fastmsc_k2_iteration in e.
    destruct (foldM _ _ _) as [best|p] in e; cbn [bind] in e; [|discriminate].
    destruct (negb (lltb (fst best) _)) in e; [discriminate|].
    destruct (snd best) as [[b j]|]; [|discriminate].
    destruct (do_swap_k2 _ _ _ _ _ _) as [[[[med' assi'] data'] loss']|p] in e; cbn [bind] in e; [|discriminate].
    cbn [k_loss] in e. destruct (lltb loss' (k_loss st)) eqn:el; cbn [negb] in e; [|discriminate].
    injection e as <-. exact el.
  Qed.

  (** ** the algorithms *)
  Lemma fastermsc_stops med f f' : sizes n (length med) -> inr n med ->
    n ^ length med <= f -> n ^ length med <= f' -> fastermsc (Lt := Lt) M med f = fastermsc M med f'.
  Proof.
    intros hs hin hf hf'. unfold fastermsc. destruct (Nat.eqb_spec (length med) 1) as [|e1]; [auto|].
    assert (hk : 2 <= length med) by (destruct hs; lia). assert (hn : 1 <= n) by (destruct hs; lia).
    destruct (Nat.eqb_spec (length med) 2) as [e2|e2].
    - unfold fastermsc_k2. rewrite e2 in *. cbn [Nat.eqb assertb bind].
      pose proof (initial_k2_shape (Lt := Lt) HM hs hin e2) as h.
      apply oks_inv in h as ([[loss assi] data] & -> & xs & ht & hr). cbn [bind fst snd] in *.
      f_equal. apply (@loop_stops _ _ _ _ _ _ _ n 2 k2F) with (I := k_inv n D)
        (medof := fun st => k_med st) (lossof := fun st => k_loss st); auto.
      + intros m h1 h2. apply k2F_ok; auto.
      + intros st hst. apply k2_inv_known; auto.
      + intros st st' hst e. pose proof (@k2_iteration_next st hn hst) as h. rewrite e in h. exact h.
      + constructor; cbn; eauto.
    - pose proof (initial_assignment3_ok (Lt := Lt) HM True hs hin hk) as h.
      apply oks_inv in h as ([loss data] & -> & hd & hsum & _). cbn [bind fst snd] in *.
      assert (hrl : oks (update_removal_loss3 data (repeat (lzero : Lt) (length med)))
                        (fun rl => length rl = length med)).
      { eapply update_removal_loss3_len; eauto. apply repeat_length. }
      apply oks_inv in hrl as (rl & -> & hrl). cbn [bind].
      f_equal. apply (@loop_stops _ _ _ _ _ _ _ n (length med) msF) with (I := m_known True (length med))
        (medof := fun st => m_med st) (lossof := fun st => m_loss st); auto.
      + intros m h1 h2. apply msF_ok; auto; rewrite h1; auto.
      + intros st [[i1 i2 i3 i4] hss]. split; [auto|]. split; [auto|].
        apply msF_unique with (m_data st); auto; rewrite i1; auto.
      + intros st st' hst e. pose proof (@msc_iteration_next True (length med) st hn hk hst) as h.
        rewrite e in h. exact h.
      + split; [constructor; auto|auto].
  Qed.

  Lemma fastmsc_stops med f f' : sizes n (length med) -> inr n med ->
    n ^ length med <= f -> n ^ length med <= f' -> fastmsc (Lt := Lt) M med f = fastmsc M med f'.
  Proof.
    intros hs hin hf hf'. unfold fastmsc. destruct (Nat.eqb_spec (length med) 1) as [|e1]; [auto|].
    assert (hk : 2 <= length med) by (destruct hs; lia). assert (hn : 2 <= n) by (destruct hs; lia).
    destruct (Nat.eqb_spec (length med) 2) as [e2|e2].
    - unfold fastmsc_k2. rewrite e2 in *. cbn [Nat.eqb assertb bind].
      pose proof (initial_k2_shape (Lt := Lt) HM hs hin e2) as h.
      apply oks_inv in h as ([[loss assi] data] & -> & xs & ht & hr). cbn [bind fst snd] in *.
      f_equal. apply (@loop_stops _ _ _ _ _ _ _ n 2 k2F) with (I := k_inv n D)
        (medof := fun st => k_med st) (lossof := fun st => k_loss st); auto.
      + intros m h1 h2. apply k2F_ok; auto.
      + intros st hst. apply k2_inv_known; auto.
      + intros st st' hst e. apply fastmsc_k2_next; auto.
      + constructor; cbn; eauto.
    - pose proof (initial_assignment3_ok (Lt := Lt) HM True hs hin hk) as h.
      apply oks_inv in h as ([loss data] & -> & hd & hsum & _). cbn [bind fst snd] in *.
      f_equal. apply (@loop_stops _ _ _ _ _ _ _ n (length med) msF)
        with (I := fun st => q_known (length med) st /\ length (m_rl st) = length med)
        (medof := fun st => m_med st) (lossof := fun st => m_loss st); auto.
      + intros m h1 h2. apply msF_ok; auto; rewrite h1; auto.
      + intros st [hst _]. apply msF_known; auto.
      + intros st st' [hst hl] e. apply fastmsc_next with (k := length med) in e; auto; [lia|apply hst].
      + split; [split; [constructor; auto|auto]|apply repeat_length].
  Qed.

  Lemma pammedsil_swap_stops med f f' : sizes n (length med) -> inr n med ->
    n ^ length med <= f -> n ^ length med <= f' -> pammedsil_swap (Lt := Lt) M med f = pammedsil_swap M med f'.
  Proof.
    intros hs hin hf hf'. unfold pammedsil_swap.
    destruct (Nat.eqb_spec (length med) 1) as [e1|e1].
    - destruct (initial_assignment3 M med) as [[loss data]|p]; cbn [bind]; [|auto].
      unfold pammedsil_optimize. rewrite e1. auto.
    - assert (hk : 2 <= length med) by (destruct hs; lia). assert (hn : 1 <= n) by (destruct hs; lia).
      pose proof (initial_assignment3_ok (Lt := Lt) HM True hs hin hk) as h.
      apply oks_inv in h as ([loss data] & -> & hd & hsum & _). cbn [bind fst snd] in *.
      unfold pammedsil_optimize. apply Nat.eqb_neq in e1 as ->.
      f_equal. apply (@loop_stops _ _ _ _ _ _ _ n (length med) msF) with (I := q_known (length med))
        (medof := fun st => m_med st) (lossof := fun st => m_loss st); auto.
      + intros m h1 h2. apply msF_ok; auto; rewrite h1; auto.
      + intros st hst. apply msF_known; auto.
      + intros st st' hst e. apply pms_next with (k := length med) in e; auto. apply hst.
      + split; [constructor; auto|auto].
  Qed.

  Lemma pammedsil_stops k f f' : sizes n k -> S (n ^ k) <= f -> S (n ^ k) <= f' ->
    pammedsil (Lt := Lt) M k f = pammedsil M k f'.
  Proof.
    intros hs hf hf'. assert (hk : 1 <= n /\ 1 <= k) by (destruct hs; lia). destruct hk as [hn hk].
    unfold pammedsil. rewrite (check_input_ok HM hs). cbn [bind].
    assert (hz : lleb (lzero : Lt) lzero = true) by (apply lleb_refl, okL_zero).
    pose proof (build3_shape HM hz hn hk) as hb. apply oks_inv in hb as (st & -> & l & hl & [h1 h2 h3 h4]).
    cbn [bind]. destruct (Nat.eq_dec l 1) as [->|hl2].
    - unfold pammedsil_optimize. rewrite h1. auto.
    - assert (hp : n ^ l <= n ^ k) by (apply Nat.pow_le_mono_r; lia).
      assert (hsl : sizes n l) by (destruct hs as [q1 [q2 q3]]; split; [lia|]; split; [auto|]; lia).
      unfold pammedsil_optimize. rewrite h1. destruct (l =? 1); [auto|].
      f_equal. destruct f as [|f]; [lia|]. destruct f' as [|f']; [lia|]. cbn [whileM].
      set (s0 := mkM _ _ _ _ _ _ _). assert (hi : q_inv n D l s0).
      { constructor; auto. split; auto. intros o r hr. destruct (h4 o r hr) as [[h _]|[_ h]]; [lia|].
        unfold s0. cbn [m_med]. rewrite h1. auto. }
      destruct (pms_iteration M s0) as [[s|s]|p] eqn:e; cbn [bind]; auto.
      apply pms_next with (k := l) in e; auto; [|lia]. destruct e as [hks _].
      apply (@loop_stops _ _ _ _ _ _ _ n l msF) with (I := q_known l)
        (medof := fun st => m_med st) (lossof := fun st => m_loss st); auto; try lia.
      + intros m q1 q2. apply msF_ok; auto; rewrite q1; auto. lia.
      + intros st' hst. apply msF_known; auto. lia.
      + intros st' st'' hst e. apply pms_next with (k := l) in e; auto; [lia|apply hst].
  Qed.
End Stop.
