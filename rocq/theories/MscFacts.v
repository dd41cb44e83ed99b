(** MscFacts.v -- fastermsc and fastmsc for three or more medoids, pammedsil_swap for two or more. *)
From Coq Require Import ZArith QArith Lqa Lia.
From Verif Require Import Base Num M_Mat M_Util M_Fasterpam M_Silhouette M_Msc M_Pammedsil Hoare
  Spec SpecFacts Laws PamShape PamExact Reference LocalSearch FpFacts PamFacts SortFacts SilFacts MscShape MscExact.
Set Implicit Arguments.
Open Scope nat_scope.

Section Shape.
  Context {Nt Lt : Type} `{HNN : NumN Nt} `{HNL : NumL Lt} `{HFN : FromN Nt Lt}.
  Variable M : Mat Nt.
  Variable n : nat.
  Variable D : nat -> nat -> Nt.
  Hypothesis HM : is_matrix M n D.

  (** fastermsc with k >= 3: never panics, for every numeric type *)
  Lemma fastermsc_shape med maxiter :
    sizes n (length med) -> inr n med -> 3 <= length med ->
    oks (fastermsc (Lt := Lt) M med maxiter) (fun r =>
      exists st : mst Nt Lt, m_inv n D True (length med) st /\
        r = mkPR (to_silhouette M (m_loss st)) (assignment3_of (m_data st)) (m_iter st) (m_swaps st) (m_med st) /\
        m_iter st <= maxiter /\ m_swaps st <= n * m_iter st /\
        (forall v, Dg n D -> Emb n D v -> NoDup med ->
           NoDup (m_med st) /\ data3_own (m_med st) (m_data st)) /\
        (Dg n D -> nis_zero (nzero : Nt) = true -> ratio_sum (m_data st) = Some (m_loss st))).
  Proof.
    intros hs hin hk. unfold fastermsc.
    replace (length med =? 1) with false by (symmetry; apply Nat.eqb_neq; lia).
    replace (length med =? 2) with false by (symmetry; apply Nat.eqb_neq; lia).
    assert (hn : 1 <= n) by (destruct hs; lia).
    assert (hk2 : 2 <= length med) by lia.
    pose proof (initial_assignment3_ok (Lt := Lt) HM True hs hin hk2) as h.
    apply oks_inv in h as ([loss data] & -> & hd & hsum & hown). cbn [bind fst snd] in *.
    assert (hrl : oks (update_removal_loss3 data (repeat (lzero : Lt) (length med)))
                      (fun rl => length rl = length med)).
    { eapply update_removal_loss3_len; eauto. apply repeat_length. }
    apply oks_inv in hrl as (rl & -> & hrl). cbn [bind].
    rewrite (len_n HM).
    eapply oks_bind.
    - apply msc_run_inv with (1 := HM) (X := True) (k := length med)
        (I := fun st => (forall v, Dg n D -> Emb n D v -> NoDup med ->
                    NoDup (m_med st) /\ data3_own (m_med st) (m_data st)) /\
                 (Dg n D -> nis_zero (nzero : Nt) = true ->
                    ratio_sum (m_data st) = Some (m_loss st))); auto.
      + constructor; auto.
      + split; cbn; auto. intros v hg he hnd. split; eauto.
      + intros st j s hi hj [hI1 hI2] hcs.
        inversion hcs as [|r a e1 e2 e3 e4|ch b e1 e2 e3|r a ch b data' rl' loss' e1 e2 e3 e4 e5 e6 e7 e8 e9];
          subst; auto.
        destruct hi as [i1 i2 i3 i4].
        assert (hk3 : 2 <= length (m_med st)) by lia.
        pose proof (do_swap3_ok (Lt := Lt) HM hn i2 hj e7 hk3 i3) as hs1.
        apply oks_elim with (2 := e8) in hs1. destruct hs1 as (_ & s1 & s2 & s3 & s4).
        cbn [m_med m_data m_loss]. split.
        * intros v hg he hnd. destruct (hI1 v hg he hnd) as [g1 g2].
          assert (hjm : ~ In j (m_med st)).
          { intros hjin. apply nth_In_iff in hjin as (c & hc1 & hc2).
            pose proof (g2 j r e2 c hc1 hc2) as hc3. congruence. }
          split; [apply NoDup_set_nth; auto|]. eapply s4; eauto.
        * intros hg hz. rewrite <- s2. symmetry. apply ratio_sum0_ratio_sum; auto.
          intros r0 hr0. rewrite (s3 r0 hr0). auto.
    - intros st (h1 & [h2 h3] & h4 & h5). cbn [oks]. exists st. auto 10.
  Qed.

  (** ** steepest descent *)
  (** the only law needed: [0 < 0] is false *)
  Hypothesis zero_irrefl : lltb (lzero : Lt) lzero = false.

  Record q_inv (k : nat) (st : mst Nt Lt) : Prop := {
    qi_len : length (m_med st) = k;
    qi_inr : inr n (m_med st);
    qi_data : data3_ok n D True (m_med st) (m_data st)
  }.

  Lemma swap_best3_shape k st rl best :
    1 <= n -> 2 <= k -> q_inv k st -> best_valid n k best ->
    oks (swap_best3 M st rl best) (fun c => let s := match c with Next s => s | Break s => s end in
      q_inv k s /\ m_rl s = rl /\ m_iter s = m_iter st /\
      (m_swaps s = m_swaps st \/ m_swaps s = S (m_swaps st))).
  Proof.
    intros hn hk hi hb. unfold swap_best3. pose proof hi as [i1 i2 i3].
    destruct (lltb lzero (fst best)) eqn:e.
    - unfold best_valid in hb. destruct (snd best) as [[b j]|] eqn:es.
      + destruct hb as [hb hj].
        assert (hb' : b < length (m_med st)) by lia.
        assert (hk3 : 2 <= length (m_med st)) by lia.
        pose proof (do_swap3_ok (Lt := Lt) HM hn i2 hj hb' hk3 i3) as hs.
        apply oks_inv in hs as ([[med' data'] loss'] & -> & -> & hd & _). cbn [bind].
        destruct (lleb (m_loss st) loss'); cbn [oks m_rl m_iter m_swaps];
          (split; [constructor; cbn [m_med m_data]; auto; [rewrite length_set_nth; auto|
                   apply inr_set_nth; auto]|auto]).
      + rewrite hb in e. congruence.
    - cbn [oks m_rl m_iter m_swaps]. split; [constructor; auto|auto].
  Qed.

  Lemma fastmsc_cand_shape k st rl best j :
    1 <= k -> q_inv k st -> length rl = k -> best_valid n k best -> j < n ->
    oks (fastmsc_cand M (m_med st) (m_data st) rl best j) (best_valid n k).
  Proof.
    intros hk [i1 i2 i3] hl hb hj. unfold fastmsc_cand.
    destruct (nth_error_ex (m_data st) (i := j)) as [r hr]; [destruct i3; lia|].
    rewrite (idx_some _ _ hr). cbn [bind].
    destruct (rec3_near (proj2 i3 j r hr)) as (a & a2 & ea & ha & _).
    rewrite ea. cbn [as_usize]. rewrite idx_nth with (d := 0) by auto. cbn [bind].
    destruct (j =? nth a (m_med st) 0); [auto|].
    assert (hf : oks (find_best_swap3 M rl (m_data st) j) (fun p => snd p < length (m_med st))).
    { eapply find_best_swap3_idx; eauto; lia. }
    apply oks_inv in hf as ([change b] & -> & hb'). cbn [bind].
    destruct (lleb change (fst best)); cbn [oks]; auto.
    unfold best_valid. cbn [snd] in *. split; lia.
  Qed.

  Lemma pms_change_shape med data j m acc (f : bool) :
    data3_ok n D True med data -> j < n ->
    oks (foldM ((if f then pms2_step (Lt := Lt) M else pms_step M) j m) (enum data) acc) (fun _ => True).
  Proof.
    intros [hl hd] hj. apply foldM_inv; auto. intros [o r] s hin _.
    apply In_enum in hin. apply nth_error_lt in hin.
    destruct f; unfold pms2_step, pms_step; destruct (o =? j); simpl; auto;
      rewrite (get_ok HM) by lia; simpl; auto.
  Qed.

  Lemma pms_cand_shape k st best j :
    q_inv k st -> best_valid n k best -> j < n ->
    oks (pms_cand M (m_med st) (m_data st) best j) (best_valid n k).
  Proof.
    intros [i1 i2 i3] hb hj. unfold pms_cand.
    destruct (nth_error_ex (m_data st) (i := j)) as [r hr]; [destruct i3; lia|].
    rewrite (idx_some _ _ hr). cbn [bind].
    destruct (rec3_near (proj2 i3 j r hr)) as (a & a2 & ea & ha & _).
    rewrite ea. cbn [as_usize]. rewrite idx_nth with (d := 0) by auto. cbn [bind].
    destruct (j =? nth a (m_med st) 0); [auto|].
    unfold find_best_swap_pms. rewrite (idx_some _ _ hr). cbn [bind].
    eapply oks_bind.
    - apply foldM_inv with (I := fun (p : Lt * option nat) =>
        match snd p with None => fst p = lzero | Some b => b < k end); [reflexivity|].
      intros m s hm hs. apply in_seq in hm.
      eapply oks_bind; [eapply pms_change_shape; eauto|].
      intros acc _. cbn [oks]. destruct (lltb (fst s) acc); auto. cbn [snd]. lia.
    - intros [change [b|]] hcb; cbn [fst snd] in hcb; cbn [fst snd];
        destruct (lleb change (fst best)); cbn [oks]; auto; unfold best_valid; cbn [fst snd]; auto.
  Qed.

  Lemma fastmsc_iteration_shape k st :
    1 <= n -> 2 <= k -> q_inv k st -> length (m_rl st) = k ->
    oks (fastmsc_iteration M st) (fun c => let s := match c with Next s => s | Break s => s end in
      q_inv k s /\ length (m_rl s) = k /\ m_iter s = S (m_iter st) /\
      (m_swaps s = m_swaps st \/ m_swaps s = S (m_swaps st))).
  Proof.
    intros hn hk hi hl. unfold fastmsc_iteration.
    cbn [m_med m_data m_rl m_loss m_last m_swaps m_iter].
    set (st1 := mkM (m_med st) (m_data st) (m_rl st) (m_loss st) (m_last st) (m_swaps st) (S (m_iter st))).
    assert (hi1 : q_inv k st1) by (destruct hi; constructor; auto).
    pose proof hi as [i1 i2 i3].
    assert (hu : oks (update_removal_loss3 (m_data st) (m_rl st)) (fun rl => length rl = length (m_med st))).
    { eapply update_removal_loss3_len; eauto. congruence. }
    apply oks_inv in hu as (rl & -> & hrl). cbn [bind].
    eapply oks_bind with (P := best_valid n k).
    - apply foldM_inv; [reflexivity|]. intros j best hj hb. apply in_seq in hj.
      rewrite (len_n HM) in hj. apply fastmsc_cand_shape; auto; lia.
    - intros best hb. eapply oks_mono; [apply swap_best3_shape with (k := k); auto|].
      cbv zeta. intros c (h1 & h2 & h3 & h4). split; [auto|]. split; [congruence|].
      cbn [m_iter m_swaps] in *. auto.
  Qed.

  Lemma pms_iteration_shape k st :
    1 <= n -> 2 <= k -> q_inv k st ->
    oks (pms_iteration M st) (fun c => let s := match c with Next s => s | Break s => s end in
      q_inv k s /\ m_iter s = S (m_iter st) /\
      (m_swaps s = m_swaps st \/ m_swaps s = S (m_swaps st))).
  Proof.
    intros hn hk hi. unfold pms_iteration. cbn [m_med m_data m_rl m_loss m_last m_swaps m_iter].
    set (st1 := mkM (m_med st) (m_data st) (m_rl st) (m_loss st) (m_last st) (m_swaps st) (S (m_iter st))).
    assert (hi1 : q_inv k st1) by (destruct hi; constructor; auto).
    eapply oks_bind with (P := best_valid n k).
    - apply foldM_inv; [reflexivity|]. intros j best hj hb. apply in_seq in hj.
      rewrite (len_n HM) in hj. apply pms_cand_shape; auto; lia.
    - intros best hb. eapply oks_mono; [apply swap_best3_shape with (k := k); auto|].
      cbv zeta. intros c (h1 & h2 & h3 & h4). split; [auto|]. cbn [m_iter m_swaps] in *. auto.
  Qed.

  Lemma fastmsc_shape med maxiter :
    sizes n (length med) -> inr n med -> 3 <= length med ->
    oks (fastmsc (Lt := Lt) M med maxiter) (res_shape n (length med) maxiter).
  Proof.
    intros hs hin hk. assert (hn : 1 <= n) by (destruct hs; lia). unfold fastmsc.
    replace (length med =? 1) with false by (symmetry; apply Nat.eqb_neq; lia).
    replace (length med =? 2) with false by (symmetry; apply Nat.eqb_neq; lia).
    assert (hk2 : 2 <= length med) by lia.
    pose proof (initial_assignment3_ok (Lt := Lt) HM True hs hin hk2) as h.
    apply oks_inv in h as ([loss data] & -> & hd & _). cbn [bind fst snd] in *.
    eapply oks_bind with (P := fun st => q_inv (length med) st /\ m_iter st <= maxiter /\
      m_swaps st <= m_iter st).
    - apply whileM_oks with (I := fun i st => q_inv (length med) st /\ length (m_rl st) = length med /\
        m_iter st = i /\ m_swaps st <= m_iter st).
      + cbn. split; [constructor; auto|]. split; [apply repeat_length|auto].
      + intros i st hlt (h1 & hr & h2 & h3).
        eapply oks_mono; [apply fastmsc_iteration_shape with (k := length med); auto; lia|].
        intros [s|s] (g1 & g2 & g3 & g4); cbv zeta in *; (split; [auto|]);
          [split; [auto|]|]; split; lia.
      + intros st (h1 & hr & h2 & h3). split; [auto|]. split; lia.
    - intros st (h1 & h2 & h3). cbn [oks]. destruct h1 as [i1 i2 i3].
      destruct (assignment3_shape i1 i3).
      unfold res_shape. cbn [r_med r_assi r_iter r_swaps]. auto 10.
  Qed.

  Lemma pammedsil_optimize_shape med data maxiter loss :
    1 <= n -> 2 <= length med -> inr n med -> data3_ok n D True med data ->
    oks (pammedsil_optimize (Lt := Lt) M med data maxiter loss) (res_shape n (length med) maxiter).
  Proof.
    intros hn hk hin hd. unfold pammedsil_optimize.
    replace (length med =? 1) with false by (symmetry; apply Nat.eqb_neq; lia).
    eapply oks_bind with (P := fun st => q_inv (length med) st /\ m_iter st <= maxiter /\
      m_swaps st <= m_iter st).
    - apply whileM_oks with (I := fun i st => q_inv (length med) st /\ m_iter st = i /\
        m_swaps st <= m_iter st).
      + cbn. split; [constructor; auto|auto].
      + intros i st hlt (h1 & h2 & h3). eapply oks_mono; [apply pms_iteration_shape; eauto|].
        intros [s|s] (g1 & g2 & g3); cbv zeta in *; (split; [auto|]); split; lia.
      + intros st (h1 & h2 & h3). split; [auto|]. split; lia.
    - intros st (h1 & h2 & h3). cbn [oks]. destruct h1 as [i1 i2 i3].
      destruct (assignment3_shape i1 i3).
      unfold res_shape. cbn [r_med r_assi r_iter r_swaps]. auto 10.
  Qed.

  Lemma pammedsil_swap_shape med maxiter :
    sizes n (length med) -> inr n med -> 2 <= length med ->
    oks (pammedsil_swap (Lt := Lt) M med maxiter) (res_shape n (length med) maxiter).
  Proof.
    intros hs hin hk. assert (hn : 1 <= n) by (destruct hs; lia). unfold pammedsil_swap.
    pose proof (initial_assignment3_ok (Lt := Lt) HM True hs hin hk) as h.
    apply oks_inv in h as ([loss data] & -> & hd & _). cbn [bind fst snd] in *.
    apply pammedsil_optimize_shape; auto.
  Qed.
End Shape.

(** ** The best swap: largest gain, first in candidate order, then first slot *)
Section Best.
  Variable Lt : Type.
  Variable val : Lt -> Q.
  Variable gain : nat -> nat -> Q.
  Variable k : nat.
  Variable cand : nat -> Prop.

  Definition gbest (t : nat) (best : Lt * option (nat * nat)) : Prop :=
    (snd best = None /\ (val (fst best) == 0)%Q /\
     forall j c, j < t -> cand j -> c < k -> (gain c j <= 0)%Q) \/
    (exists b j, snd best = Some (b, j) /\ b < k /\ j < t /\ cand j /\
       (val (fst best) == gain b j)%Q /\ (0 < gain b j)%Q /\
       (forall j' c, j' < t -> cand j' -> c < k -> (gain c j' <= gain b j)%Q) /\
       (forall j' c, j' < j -> cand j' -> c < k -> (gain c j' < gain b j)%Q) /\
       (forall c, c < b -> (gain c j < gain b j)%Q)).

  Lemma gbest_unique t b1 b2 : gbest t b1 -> gbest t b2 ->
    snd b1 = snd b2 /\ (val (fst b1) == val (fst b2))%Q.
  Proof.
    intros [(h1 & h2 & h3)|(b & j & h1 & h2 & h3 & hc & h4 & h5 & h6 & h7 & h8)]
           [(g1 & g2 & g3)|(b' & j' & g1 & g2 & g3 & gc & g4 & g5 & g6 & g7 & g8)].
    - split; [congruence|lra].
    - specialize (h3 j' b' g3 gc g2). lra.
    - specialize (g3 j b h3 hc h2). lra.
    - assert (j = j' /\ b = b') as [-> ->].
      { assert (ej : j = j').
        { destruct (lt_eq_lt_dec j j') as [[hlt|]|hlt]; auto.
          - specialize (g7 j b hlt hc h2). specialize (h6 j' b' g3 gc g2). lra.
          - specialize (h7 j' b' hlt gc g2). specialize (g6 j b h3 hc h2). lra. }
        subst j'. split; auto.
        destruct (lt_eq_lt_dec b b') as [[hlt|]|hlt]; auto.
        - specialize (g8 b hlt). specialize (h6 j b' g3 gc g2). lra.
        - specialize (h8 b' hlt). specialize (g6 j b h3 hc h2). lra. }
      split; [congruence|lra].
  Qed.

  Lemma gbest_keep j best :
    (cand j -> forall c, c < k -> (gain c j <= val (fst best))%Q) -> gbest j best -> gbest (S j) best.
  Proof.
    intros hd hb.
    destruct hb as [(h1 & h2 & h3)|(b & j0 & h1 & h2 & h3 & hc0 & h4 & h5 & h6 & h7 & h8)].
    - left. split; [auto|]. split; [auto|]. intros j' c hlt hcj hc.
      destruct (Nat.eq_dec j' j) as [->|]; [specialize (hd hcj c hc); lra|]. apply h3; auto. lia.
    - right. exists b, j0. split; [auto|]. split; [auto|]. split; [lia|]. split; [auto|].
      split; [auto|]. split; [auto|]. split; [|auto]. intros j' c hlt hcj hc.
      destruct (Nat.eq_dec j' j) as [->|]; [specialize (hd hcj c hc); lra|]. apply h6; auto. lia.
  Qed.

  Lemma gbest_skip j best : ~ cand j -> gbest j best -> gbest (S j) best.
  Proof. intros h. apply gbest_keep. tauto. Qed.

  Lemma gbest_new j best change b :
    cand j -> b < k -> (val change == gain b j)%Q -> (val (fst best) < val change)%Q ->
    (forall c, c < k -> (gain c j <= gain b j)%Q) ->
    (forall c, c < b -> (gain c j < gain b j)%Q) ->
    gbest j best -> gbest (S j) (change, Some (b, j)).
  Proof.
    intros hcj hb hc hlt hmin hfst hbest. right. exists b, j. cbn [fst snd].
    assert (h0 : (0 <= val (fst best))%Q).
    { destruct hbest as [(_ & h & _)|(b0 & j0 & _ & _ & _ & _ & h4 & h5 & _)]; lra. }
    assert (hall : forall j' c, j' < j -> cand j' -> c < k -> (gain c j' <= val (fst best))%Q).
    { intros j' c hj' hcj' hc'.
      destruct hbest as [(_ & h & h3)|(b0 & j0 & _ & _ & _ & _ & h4 & h5 & h6 & _)].
      - specialize (h3 j' c hj' hcj' hc'). lra.
      - specialize (h6 j' c hj' hcj' hc'). lra. }
    split; [auto|]. split; [auto|]. split; [lia|]. split; [auto|]. split; [auto|]. split; [lra|].
    split; [|split; [|auto]].
    - intros j' c hj' hcj' hc'. destruct (Nat.eq_dec j' j) as [->|]; [auto|].
      assert (hlt' : j' < j) by lia. specialize (hall j' c hlt' hcj' hc'). lra.
    - intros j' c hj' hcj' hc'. specialize (hall j' c hj' hcj' hc'). lra.
  Qed.

  Lemma gbest_zero best : snd best = None -> (val (fst best) == 0)%Q -> gbest 0 best.
  Proof. intros h1 h2. left. split; [auto|]. split; [auto|]. intros; lia. Qed.
End Best.

Section Exact.
  Context {Nt Lt : Type} `{HLL : LossLaws Nt Lt} `{HAL : !AddLaws Nt} `{HDL : !DivLaws Nt Lt}.
  Variable M : Mat Nt.
  Variable n : nat.
  Variable D : nat -> nat -> Nt.
  Hypothesis HD : diss_matrix M n D.
  Local Notation v := (vals D).

  Lemma diss_vals : dissimilarity n v.
  Proof.
    destruct HD as (_ & h2 & h3). split.
    - intros i hi. unfold vals. rewrite h2 by auto. apply vN_zero.
    - intros i j hi hj. apply h3; auto.
  Qed.

  Lemma to_silhouette_ok med (loss : Lt) : sizes n (length med) ->
    (vL loss == rtot v n med)%Q -> (vL (to_silhouette M loss) == med_sil v n med)%Q.
  Proof.
    intros [hk [hn _]] hl. unfold to_silhouette. rewrite (len_n (proj1 HD)).
    rewrite as_u32_small by auto. rewrite vL_sub, vL_one, vL_div.
    - rewrite (vL_count), hl. reflexivity.
    - rewrite (vL_count). intros c. apply (proj1 (inject_Z_injective _ 0)) in c. lia.
  Qed.

  (** every measure of medoid lists that drops whenever the medoid silhouette rises *)
  Definition measure_ok3 (k : nat) (f : list nat -> nat) : Prop :=
    forall med med', medoids n k med -> medoids n k med' ->
      (med_sil v n med < med_sil v n med')%Q -> f med' < f med.

  Lemma measure_better3 k : measure_ok3 k (better (fun m => 1 - med_sil v n m)%Q n k).
  Proof. intros med med' _ (h1 & _ & h2) hlt. apply better_lt; auto. lra. Qed.

  (** summary of a run *)
  Record msc_summary (med : list nat) (maxiter : nat) (r : pam_result Lt) : Prop := {
    ms_medoids : medoids n (length med) (r_med r);
    ms_assi_len : length (r_assi r) = n;
    ms_nearest : forall o, o < n -> nearest v o (r_med r) (nth o (r_assi r) 0);
    ms_value : (vL (r_loss r) == med_sil v n (r_med r))%Q;
    ms_obj : (med_sil v n med <= med_sil v n (r_med r))%Q;
    ms_strict : 0 < r_swaps r -> (med_sil v n med < med_sil v n (r_med r))%Q;
    ms_same : r_swaps r = 0 -> r_med r = med;
    ms_iter : r_iter r <= maxiter;
    ms_iterswap : r_iter r <= S (r_swaps r);
    ms_opt : r_iter r < maxiter \/ (r_swaps r = 0 /\ 0 < maxiter) -> sil_optimal v n (r_med r)
  }.
  Definition own_clusters (r : pam_result Lt) : Prop :=
    forall c, c < length (r_med r) -> nth (nth c (r_med r) 0) (r_assi r) 0 = c.

  Lemma assi3_facts med data :
    inr n med -> data3_ok n D True med data -> data3_own med data ->
    length (assignment3_of data) = n /\
    (forall o, o < n -> nearest v o med (nth o (assignment3_of data) 0)) /\
    (forall c, c < length med -> nth (nth c med 0) (assignment3_of data) 0 = c).
  Proof.
    intros i2 [hl hd] g2.
    assert (hn : forall o, o < n -> exists r, nth_error data o = Some r /\
               nth o (assignment3_of data) 0 = as_usize (di (near3 r))).
    { intros o ho. destruct (nth_error_ex data (i := o)) as [r hr]; [lia|].
      exists r. split; auto. apply nth_error_nth. unfold assignment3_of.
      rewrite nth_error_map, hr. auto. }
    split; [unfold assignment3_of; rewrite map_length; auto|]. split.
    - intros o ho. destruct (hn o ho) as (r & hr & ->).
      destruct (rec3_x2 HD (hd o r hr)) as (a & s & hx).
      destruct (rec_x2_ratio hx) as [_ hnear].
      destruct hx as (_ & _ & _ & -> & _). auto.
    - intros c hc. assert (hcn : nth c med 0 < n) by (apply inr_nth; auto; lia).
      destruct (hn _ hcn) as (r & hr & ->).
      rewrite (g2 _ r hr c); auto.
  Qed.

  (** ** fastermsc *)
  Record m_good (k : nat) (st : mst Nt Lt) : Prop := {
    mg_inv : m_inv n D True k st;
    mg_own : data3_own (m_med st) (m_data st);
    mg_nodup : NoDup (m_med st);
    mg_rl : rl3_ok (m_data st) (m_rl st);
    mg_loss : (vL (m_loss st) == rtot v n (m_med st))%Q
  }.

  Definition m_nonimp (st : mst Nt Lt) (j : nat) : Prop :=
    ~ In j (m_med st) -> forall b, b < length (m_med st) ->
      (rtot v n (m_med st) <= rtot v n (swap (m_med st) b j))%Q.

  Lemma own3_not_in (med : list nat) (data : list (Reco Nt)) j r a :
    data3_own med data -> nth_error data j = Some r -> di (near3 r) = Some a ->
    nth a med 0 <> j -> ~ In j med.
  Proof.
    intros ho hr ha hne hjin. apply nth_In_iff in hjin as (c & hc1 & hc2).
    pose proof (ho j r hr c hc1 hc2) as hc3. congruence.
  Qed.

  Lemma m_swap_good k st j b data' rl' loss' la sw it :
    1 <= n -> 3 <= k -> j < n -> m_good k st -> ~ In j (m_med st) -> b < length (m_med st) ->
    do_swap3 M (m_med st) (m_data st) b j = Ok (set_nth (m_med st) b j, data', loss') ->
    update_removal_loss3 data' (m_rl st) = Ok rl' ->
    m_good k (mkM (set_nth (m_med st) b j) data' rl' loss' la sw it).
  Proof.
    intros hn hk hj [g1 g2 g3 g4 g5] hjm hb e1 e2.
    pose proof (proj1 HD) as HM.
    assert (hk2 : 2 <= k) by lia.
    pose proof (m_inv_swap HM it sw la hn hk2 hj g1 hb e1 e2) as hi.
    pose proof g1 as [i1 i2 i3 i4].
    assert (hk' : 2 <= length (m_med st)) by lia.
    pose proof (do_swap3_ok (Lt := Lt) HM hn i2 hj hb hk' i3) as hs1.
    apply oks_elim with (2 := e1) in hs1. destruct hs1 as (_ & s1 & s2 & s3 & s4).
    destruct (emb_vals HD) as [he hg].
    constructor; cbn [m_med m_data m_rl m_loss].
    - auto.
    - eapply s4; eauto.
    - apply NoDup_set_nth; auto.
    - assert (hl : length (m_rl st) = length (set_nth (m_med st) b j)).
      { rewrite length_set_nth. congruence. }
      assert (hk3 : 3 <= length (set_nth (m_med st) b j)) by (rewrite length_set_nth; lia).
      pose proof (update_removal_loss3_ok HD (m_rl st) (inr_set_nth b i2 hj) hk3 s1 hl) as hu.
      apply oks_elim with (2 := e2) in hu. apply hu.
    - eapply ratio_sum0_rtot with (b := b); eauto. apply inr_set_nth; auto.
  Qed.

  (** the reference steps: the best swap for [j], the best of all swaps, if it is an improvement *)
  Definition sil_try (m : list nat) (j : nat) : option (list nat) :=
    improve (sil_better v n) (swaps_for m j) m.
  Definition sil_best (m : list nat) : option (list nat) := improve (sil_better v n) (all_swaps n m) m.

  Lemma sil_better_rtot : 1 <= n -> forall a b, sil_better v n a b = Qlt_bool (rtot v n a) (rtot v n b).
  Proof.
    intros hn a b. unfold sil_better. destruct (Qlt_bool (rtot v n a) (rtot v n b)) eqn:e.
    - apply Qlt_bool_iff in e. apply Qlt_bool_iff, rtot_lt; auto.
    - apply Qlt_bool_false in e. apply Qlt_bool_false, rtot_le; auto.
  Qed.

  Lemma msc_cand_spec k f st j :
    1 <= n -> 3 <= k -> j < n -> measure_ok3 k f -> m_good k st ->
    oks (msc_cand M st j) (fun c => match c with
      | Break s => s = st /\ j = m_last st
      | Next s => m_good k s /\ m_iter s = m_iter st /\ j <> m_last st /\
          ((s = st /\ m_nonimp st j) \/
           ((rtot v n (m_med s) < rtot v n (m_med st))%Q /\ f (m_med s) < f (m_med st) /\
            m_last s = j /\ m_swaps s = S (m_swaps st) /\ m_nonimp s j /\ ~ m_nonimp st j /\
            sil_try (m_med st) j = Some (m_med s)))
      end).
  Proof.
    intros hn hk hj hf hg. pose proof hg as [g1 g2 g3 g4 g5]. pose proof g1 as [i1 i2 i3 i4].
    pose proof (proj1 HD) as HM. assert (hk2 : 2 <= k) by lia.
    eapply oks_mono; [apply (msc_cand_ok HM hn hk2 hj g1)|].
    intros c hc.
    assert (hfb : forall change b, find_best_swap3 M (m_rl st) (m_data st) j = Ok (change, b) ->
      b < length (m_med st) /\
      (vL change == rtot v n (m_med st) - rtot v n (swap (m_med st) b j))%Q /\
      (forall c, c < length (m_med st) ->
         (rtot v n (swap (m_med st) b j) <= rtot v n (swap (m_med st) c j))%Q) /\
      (forall c, c < b -> (rtot v n (swap (m_med st) b j) < rtot v n (swap (m_med st) c j))%Q)).
    { intros change b e.
      assert (hl : length (m_rl st) = length (m_med st)) by congruence.
      assert (hk' : 3 <= length (m_med st)) by lia.
      pose proof (find_best_swap3_ok HD i2 i3 hl hk' hj g4) as hb.
      apply oks_elim with (2 := e) in hb. destruct hb as (b1 & b2 & b3 & b4). auto. }
    destruct hc as [e1|r a e1 e2 e3 e4|ch b e1 e2 e3|r a ch b data' rl' loss' e1 e2 e3 e4 e5 e6 e7 e8 e9].
    - auto.
    - split; [auto|]. split; [auto|]. split; [auto|]. left. split; [auto|].
      intros hni. exfalso. apply hni. rewrite <- e4. apply nth_In.
      destruct (rec3_near (proj2 i3 j r e2)) as (a' & b' & ea & ha & _). congruence.
    - split; [auto|]. split; [auto|]. split; [auto|]. left. split; [auto|].
      intros _ c hc. destruct (hfb _ _ e2) as (b1 & b2 & b3 & _).
      apply lleb_spec in e3. rewrite vL_zero in e3. specialize (b3 c hc). lra.
    - destruct (hfb _ _ e5) as (b1 & b2 & b3 & b4).
      assert (hjm : ~ In j (m_med st)) by eauto using own3_not_in.
      assert (hg' := m_swap_good j (S (m_swaps st)) (m_iter st) hn hk hj hg hjm e7 e8 e9).
      split; [auto|]. split; [auto|]. split; [auto|]. right. cbn [m_med m_last m_swaps].
      assert (hlt : (rtot v n (set_nth (m_med st) b j) < rtot v n (m_med st))%Q).
      { rewrite <- swap_set_nth by auto. apply Qnot_le_lt. intros hle.
        assert (hx : lleb ch lzero = true); [|congruence].
        apply lleb_spec. rewrite vL_zero, b2. lra. }
      split; [auto|]. split; [|split; [auto|split; [auto|split; [|split]]]].
      + apply hf; [split; auto| |apply rtot_lt; auto].
        destruct hg' as [[j1 j2 _ _] _ j3 _ _]. split; auto.
      + intros hni. exfalso. apply hni. cbn [m_med].
        rewrite <- (nth_set_nth_eq (m_med st) j 0 e7) at 1. apply nth_In.
        rewrite length_set_nth. auto.
      + intros hni. specialize (hni hjm b e7). rewrite swap_set_nth in hni by auto. lra.
      + unfold sil_try. rewrite <- swap_set_nth in hlt |- * by auto.
        apply eager_some with (f := rtot v n); auto. apply sil_better_rtot; auto.
  Qed.

  Lemma msc_initial med :
    sizes n (length med) -> medoids n (length med) med -> 3 <= length med ->
    exists loss data (rl : list Lt),
      initial_assignment3 M med = Ok (loss, data) /\
      update_removal_loss3 data (repeat lzero (length med)) = Ok rl /\
      forall la, m_good (length med) (mkM med data rl loss la 0 0).
  Proof.
    intros hs (_ & hnd & hin) hk. pose proof (proj1 HD) as HM. destruct (emb_vals HD) as [he hg].
    assert (hk2 : 2 <= length med) by lia.
    pose proof (initial_assignment3_ok (Lt := Lt) HM True hs hin hk2) as h.
    apply oks_inv in h as ([loss data] & e & hd & hsum & hown). cbn [fst snd] in *.
    assert (hr : length (repeat (lzero : Lt) (length med)) = length med) by apply repeat_length.
    pose proof (update_removal_loss3_ok HD _ hin hk hd hr) as hu.
    apply oks_inv in hu as (rl & er & hl & hrl).
    exists loss, data, rl. split; [auto|]. split; [auto|]. intros la.
    constructor; cbn [m_med m_data m_rl m_loss]; auto.
    - constructor; auto.
    - eauto.
    - eapply ratio_sum_rtot; eauto.
  Qed.

  Lemma msc_run_ok k maxiter f (st0 : mst Nt Lt) :
    1 <= n -> 3 <= k -> measure_ok3 k f -> m_good k st0 ->
    m_swaps st0 = 0 -> m_iter st0 = 0 -> m_last st0 = n ->
    oks (whileM maxiter (msc_iteration M) st0)
        (first_result (seq 0 n) (@m_swaps Nt Lt) (@m_iter Nt Lt) (fun st => rtot v n (m_med st))
           (m_good k) m_nonimp (fun st => f (m_med st)) (@m_med Nt Lt) sil_try
           (fun st => mkM (m_med st) (m_data st) (m_rl st) (m_loss st) (m_last st)
                          (m_swaps st) (S (m_iter st))) maxiter st0).
  Proof.
    intros hn hk hf hg0 hs hi hl. pose proof (proj1 HD) as HM.
    assert (E : forall st, msc_iteration M st = iteration (msc_cand M) (seq 0 n) (@m_swaps Nt Lt)
      (fun st => mkM (m_med st) (m_data st) (m_rl st) (m_loss st) (m_last st)
                               (m_swaps st) (S (m_iter st)))
      (fun st st' => lleb (m_loss st) (m_loss st')) st).
    { intros st. unfold msc_iteration, iteration. rewrite (len_n HM). auto. }
    assert (E2 : whileM maxiter (msc_iteration M) st0 = whileM maxiter (iteration (msc_cand M) (seq 0 n) (@m_swaps Nt Lt)
      (fun st => mkM (m_med st) (m_data st) (m_rl st) (m_loss st) (m_last st)
                               (m_swaps st) (S (m_iter st)))
      (fun st st' => lleb (m_loss st) (m_loss st'))) st0).
    { generalize st0. induction maxiter as [|m IH]; intros s; cbn [whileM]; [auto|].
      rewrite E. destruct (iteration _ _ _ _ _ s) as [[s'|s']|]; cbn [bind]; auto. }
    rewrite E2.
    apply first_improvement with (last := @m_last Nt Lt); auto.
    - apply seq_NoDup.
    - intros st hg. split; [destruct hg as [[] ? ? ? ?]; constructor; auto; constructor; auto|].
      cbn. auto 10.
    - intros st st' hg hg' hlt. destruct (lleb (m_loss st) (m_loss st')) eqn:e; auto.
      apply lleb_spec in e. rewrite (mg_loss hg), (mg_loss hg') in e. lra.
    - intros st j hg hj hni. apply eager_none with (f := rtot v n); [apply sil_better_rtot; auto|auto].
    - intros st j hg hj. apply in_seq in hj. apply msc_cand_spec; auto. lia.
    - intros hin. apply in_seq in hin. lia.
  Qed.

  Lemma fastermsc_ok med maxiter (f : list nat -> nat) :
    sizes n (length med) -> medoids n (length med) med -> 3 <= length med ->
    measure_ok3 (length med) f ->
    oks (fastermsc M med maxiter) (fun r =>
      msc_summary med maxiter r /\ own_clusters r /\ r_swaps r + f (r_med r) <= f med /\
      (sil_optimal v n med -> 0 < maxiter -> r_swaps r = 0 /\ r_iter r = 1) /\
      (r_med r, r_swaps r, r_iter r) = eager_swaps (sil_better v n) (seq 0 n) med maxiter).
  Proof.
    intros hs hm hk hf. unfold fastermsc.
    replace (length med =? 1) with false by (symmetry; apply Nat.eqb_neq; lia).
    replace (length med =? 2) with false by (symmetry; apply Nat.eqb_neq; lia).
    assert (hn : 1 <= n) by (destruct hs; lia).
    destruct (msc_initial hs hm hk) as (loss & data & rl & e1 & e2 & hg0).
    rewrite e1. cbn [bind]. rewrite e2. cbn [bind].
    pose proof (proj1 HD) as HM. rewrite (len_n HM). specialize (hg0 n).
    eapply oks_bind; [apply msc_run_ok with (f := f) (2 := hk); auto|].
    intros st h. cbn [oks]. destruct h as [h1 h2 h3 h4 h5 h6 h7 h8 h9 h10 h11].
    cbn [m_med] in *.
    pose proof h1 as [[i1 i2 i3 i4] g2 g3 g4 g5].
    destruct (assi3_facts i2 i3 g2) as (a1 & a2 & a3).
    assert (hs' : sizes n (length (m_med st))) by (rewrite i1; auto).
    split; [|split; [exact a3|split; [exact h6|split; [|exact h11]]]].
    2:{ intros hopt hmi. rewrite h10; auto. intros j hj hni b hb. apply in_seq in hj. cbn [m_med] in *.
        apply rtot_le; auto. apply hopt; auto. lia. }
    constructor; cbn [r_med r_assi r_loss r_swaps r_iter]; auto.
    - split; auto.
    - apply to_silhouette_ok; auto.
    - apply rtot_le; auto.
    - intros hp. apply rtot_lt; auto.
    - intros hend b j hb hj hni. apply rtot_le; auto.
      destruct hend as [hlt|[hsw hmi]].
      + apply h8; auto. apply in_seq. lia.
      + apply h9; auto. apply in_seq. lia.
  Qed.

  (** ** fastmsc, pammedsil_swap *)
  Record q_good (k : nat) (st : mst Nt Lt) : Prop := {
    qg_inv : q_inv n D k st;
    qg_own : data3_own (m_med st) (m_data st);
    qg_nodup : NoDup (m_med st);
    qg_loss : (vL (m_loss st) == rtot v n (m_med st))%Q
  }.

  Definition gain3 (med : list nat) (b j : nat) : Q := (rtot v n med - rtot v n (swap med b j))%Q.
  Definition best3 (med : list nat) := gbest (vL : Lt -> Q) (gain3 med) (length med) (fun j => ~ In j med).

  Lemma fastmsc_cand_ok k st rl best j :
    3 <= k -> q_good k st -> length rl = k -> rl3_ok (m_data st) rl -> j < n ->
    best3 (m_med st) j best ->
    oks (fastmsc_cand M (m_med st) (m_data st) rl best j) (best3 (m_med st) (S j)).
  Proof.
    intros hk [[i1 i2 i3] g2 g3 g4] hl hrl hj hb. unfold fastmsc_cand.
    destruct (nth_error_ex (m_data st) (i := j)) as [r hr]; [destruct i3; lia|].
    rewrite (idx_some _ _ hr). cbn [bind].
    destruct (rec3_near (proj2 i3 j r hr)) as (a & a' & ea & ha & _).
    rewrite ea. cbn [as_usize]. rewrite idx_nth with (d := 0) by auto. cbn [bind].
    destruct (j =? nth a (m_med st) 0) eqn:em.
    { apply Nat.eqb_eq in em. cbn [oks]. apply gbest_skip; auto.
      intros c. apply c. rewrite em. apply nth_In. auto. }
    apply Nat.eqb_neq in em.
    assert (hjm : ~ In j (m_med st)) by eauto using own3_not_in.
    assert (hl' : length rl = length (m_med st)) by congruence.
    assert (hk' : 3 <= length (m_med st)) by lia.
    pose proof (find_best_swap3_ok HD i2 i3 hl' hk' hj hrl) as hf.
    apply oks_inv in hf as ([change b] & -> & b1 & b2 & b3 & b4). cbn [fst snd bind] in *.
    destruct (lleb change (fst best)) eqn:e; cbn [oks].
    - apply lleb_spec in e. apply gbest_keep; auto. intros _ c hc. specialize (b3 c hc).
      unfold gain3. lra.
    - assert (hlt : (vL (fst best) < vL change)%Q).
      { apply Qnot_le_lt. intros h. apply lleb_spec in h. congruence. }
      apply gbest_new with (best := best); auto.
      + intros c hc. specialize (b3 c hc). unfold gain3. lra.
      + intros c hc. specialize (b4 c hc). unfold gain3. lra.
  Qed.

  Lemma pms_cand_ok k st best j :
    2 <= k -> q_good k st -> j < n -> best3 (m_med st) j best ->
    oks (pms_cand M (m_med st) (m_data st) best j) (best3 (m_med st) (S j)).
  Proof.
    intros hk [[i1 i2 i3] g2 g3 g4] hj hb. unfold pms_cand.
    destruct (nth_error_ex (m_data st) (i := j)) as [r hr]; [destruct i3; lia|].
    rewrite (idx_some _ _ hr). cbn [bind].
    destruct (rec3_near (proj2 i3 j r hr)) as (a & a' & ea & ha & _).
    rewrite ea. cbn [as_usize]. rewrite idx_nth with (d := 0) by auto. cbn [bind].
    destruct (j =? nth a (m_med st) 0) eqn:em.
    { apply Nat.eqb_eq in em. cbn [oks]. apply gbest_skip; auto.
      intros c. apply c. rewrite em. apply nth_In. auto. }
    apply Nat.eqb_neq in em.
    assert (hjm : ~ In j (m_med st)) by eauto using own3_not_in.
    unfold find_best_swap_pms. rewrite (idx_some _ _ hr). cbn [bind].
    assert (hk' : 2 <= length (m_med st)) by lia.
    set (g := gain3 (m_med st)).
    eapply oks_bind.
    - apply foldM_seq with (I := fun t (p : Lt * option nat) =>
        match snd p with
        | None => (vL (fst p) == 0)%Q /\ forall c, c < t -> (g c j <= 0)%Q
        | Some b => b < t /\ (vL (fst p) == g b j)%Q /\ (0 < g b j)%Q /\
            (forall c, c < t -> (g c j <= g b j)%Q) /\
            (forall c, c < b -> (g c j < g b j)%Q)
        end).
      + cbn [fst snd]. split; [apply vL_zero|]. intros; lia.
      + intros m p hm hp.
        eapply oks_bind; [eapply pms_change_ok with (med := m_med st); eauto|].
        { change (ratio (dd (near3 r)) (dd (seco3 r))) with (rec_ratio (Lt := Lt) r).
          apply (rec_ratio_ok HD); auto. apply (proj2 i3 j r hr). }
        intros acc hacc. cbv beta in hacc. change (vL acc == g m j)%Q in hacc.
        cbn [oks]. destruct (lltb (fst p) acc) eqn:el.
        * apply lltb_spec in el. cbn [fst snd]. destruct (snd p) as [b|] eqn:es.
          -- destruct hp as (p1 & p2 & p3 & p4 & p5).
             split; [lia|]. split; [auto|]. split; [lra|]. split.
             ++ intros c hc. destruct (Nat.eq_dec c m) as [->|]; [lra|].
                specialize (p4 c ltac:(lia)). lra.
             ++ intros c hc. specialize (p4 c hc). lra.
          -- destruct hp as (p1 & p2). split; [lia|]. split; [auto|]. split; [lra|]. split.
             ++ intros c hc. destruct (Nat.eq_dec c m) as [->|]; [lra|].
                specialize (p2 c ltac:(lia)). lra.
             ++ intros c hc. specialize (p2 c hc). lra.
        * assert (hle : (vL acc <= vL (fst p))%Q).
          { apply Qnot_lt_le. intros h. apply lltb_spec in h. congruence. }
          destruct (snd p) as [b|] eqn:es.
          -- destruct hp as (p1 & p2 & p3 & p4 & p5).
             split; [lia|]. split; [auto|]. split; [auto|]. split; [|auto].
             intros c hc. destruct (Nat.eq_dec c m) as [->|]; [lra|]. apply p4. lia.
          -- destruct hp as (p1 & p2). split; [auto|].
             intros c hc. destruct (Nat.eq_dec c m) as [->|]; [lra|]. apply p2. lia.
    - assert (h0 : (0 <= vL (fst best))%Q).
      { destruct hb as [(_ & h & _)|(b0 & j0 & _ & _ & _ & _ & h4 & h5 & _)]; lra. }
      intros [change ob] hp. cbn [fst snd] in hp.
      destruct (lleb change (fst best)) eqn:e; cbn [oks].
      + apply lleb_spec in e. apply gbest_keep; auto. intros _ c hc. fold g.
        destruct ob as [b|].
        * destruct hp as (p1 & p2 & p3 & p4 & p5). specialize (p4 c hc). lra.
        * destruct hp as (p1 & p2). specialize (p2 c hc). lra.
      + assert (hlt : (vL (fst best) < vL change)%Q).
        { apply Qnot_le_lt. intros h. apply lleb_spec in h. congruence. }
        destruct ob as [b|].
        * destruct hp as (p1 & p2 & p3 & p4 & p5). apply gbest_new with (best := best); auto.
        * destruct hp as (p1 & p2). lra.
  Qed.

  (** one iteration: the best swap is performed, or there is none *)
  Definition steep3 (k : nat) (st : mst Nt Lt) (it : nat) (c : ctl (mst Nt Lt)) : Prop :=
    match c with
    | Break s => q_good k s /\ sil_optimal v n (m_med s) /\ m_med s = m_med st /\
                 m_data s = m_data st /\ m_loss s = m_loss st /\
                 m_swaps s = m_swaps st /\ m_iter s = it /\ sil_best (m_med st) = None
    | Next s => q_good k s /\ (exists b j, b < k /\ j < n /\ ~ In j (m_med st) /\ m_med s = swap (m_med st) b j /\
                  forall b' j', b' < k -> j' < n -> ~ In j' (m_med st) ->
                    (med_sil v n (swap (m_med st) b' j') <= med_sil v n (m_med s))%Q) /\
                (med_sil v n (m_med st) < med_sil v n (m_med s))%Q /\
                m_swaps s = S (m_swaps st) /\ m_iter s = it /\ sil_best (m_med st) = Some (m_med s)
    end.

  Lemma swap_best3_ok k st rl best :
    1 <= n -> 2 <= k -> q_good k st -> best3 (m_med st) n best ->
    oks (swap_best3 M st rl best) (fun c =>
      m_rl (match c with Next s => s | Break s => s end) = rl /\ steep3 k st (m_iter st) c).
  Proof.
    intros hn hk hg hb. pose proof hg as [[i1 i2 i3] g2 g3 g4]. unfold swap_best3.
    pose proof (proj1 HD) as HM. destruct (emb_vals HD) as [he hdg].
    destruct hb as [(h1 & h2 & h3)|(b & j & h1 & h2 & h3 & hjm & h4 & h5 & h6 & h7 & h8)].
    - assert (e : lltb lzero (fst best) = false).
      { destruct (lltb lzero (fst best)) eqn:e; auto. apply lltb_spec in e.
        rewrite vL_zero in e. lra. }
      rewrite e. cbn [oks]. cbn. split; [auto|]. split; [constructor; auto; constructor; auto|].
      assert (hopt : forall b j, b < length (m_med st) -> j < n -> ~ In j (m_med st) ->
                (rtot v n (m_med st) <= rtot v n (swap (m_med st) b j))%Q).
      { intros b j hb hj hjm. specialize (h3 j b hj hjm hb). unfold gain3 in h3. lra. }
      split; [|do 5 (split; [auto|]); apply steep_none with (f := rtot v n); [apply sil_better_rtot; auto|auto]].
      intros b j hb hj hjm. apply rtot_le; auto.
    - assert (e : lltb lzero (fst best) = true).
      { apply lltb_spec. rewrite vL_zero. lra. }
      rewrite e, h1.
      assert (hk' : 2 <= length (m_med st)) by lia.
      pose proof (do_swap3_ok (Lt := Lt) HM hn i2 h3 h2 hk' i3) as hs.
      apply oks_inv in hs as ([[med' data'] loss'] & -> & -> & s1 & s2 & s3 & s4). cbn [bind].
      assert (hloss : (vL loss' == rtot v n (set_nth (m_med st) b j))%Q).
      { eapply ratio_sum0_rtot with (b := b); eauto. apply inr_set_nth; auto. }
      assert (hlt : (rtot v n (set_nth (m_med st) b j) < rtot v n (m_med st))%Q).
      { unfold gain3 in h5. rewrite swap_set_nth in h5 by auto. lra. }
      assert (e2 : lleb (m_loss st) loss' = false).
      { destruct (lleb (m_loss st) loss') eqn:e2; auto. apply lleb_spec in e2. lra. }
      rewrite e2. cbn [oks m_rl m_med m_data m_loss m_swaps m_iter].
      split; [auto|]. split; [|split; [|split; [|split; [auto|split; [auto|]]]]].
      + constructor; cbn [m_med m_data m_loss].
        * constructor; cbn [m_med m_data]; auto; [rewrite length_set_nth; auto|apply inr_set_nth; auto].
        * eapply s4; eauto.
        * apply NoDup_set_nth; auto.
        * auto.
      + exists b, j. cbn [m_med]. rewrite swap_set_nth by auto. split; [lia|]. split; [auto|]. split; [auto|].
        split; [auto|]. intros b' j' hb' hj' hjm'. apply rtot_le; auto. rewrite <- swap_set_nth by auto.
        specialize (h6 j' b' hj' hjm' ltac:(lia)). unfold gain3 in h6. lra.
      + cbn [m_med]. apply rtot_lt; auto.
      + unfold sil_best. rewrite <- swap_set_nth in hlt |- * by auto. unfold gain3 in *.
        apply steep_some with (f := rtot v n); auto.
        * apply sil_better_rtot; auto.
        * intros j' c hj' hjm' hc. specialize (h6 j' c hj' hjm' hc). lra.
        * intros j' c hj' hjm' hc. specialize (h7 j' c hj' hjm' hc). lra.
        * intros c hc. specialize (h8 c hc). lra.
  Qed.

  Definition inc3 (st : mst Nt Lt) : mst Nt Lt :=
    mkM (m_med st) (m_data st) (m_rl st) (m_loss st) (m_last st) (m_swaps st) (S (m_iter st)).

  Lemma inc3_good k st : q_good k st -> q_good k (inc3 st).
  Proof. intros [[] ? ? ?]. constructor; auto. constructor; auto. Qed.

  Lemma fastmsc_best_ok k st :
    3 <= k -> q_good k st -> length (m_rl st) = k ->
    oks (rl <- update_removal_loss3 (m_data st) (m_rl st) ;;
         best <- foldM (fastmsc_cand M (m_med st) (m_data st) rl) (seq 0 (mlen M)) (lzero, None) ;;
         Ok (rl, best)) (fun p => length (fst p) = k /\ best3 (m_med st) n (snd p)).
  Proof.
    intros hk hg hl. pose proof hg as [[i1 i2 i3] g2 g3 g4].
    assert (hl' : length (m_rl st) = length (m_med st)) by congruence.
    assert (hk' : 3 <= length (m_med st)) by lia.
    pose proof (update_removal_loss3_ok HD (m_rl st) i2 hk' i3 hl') as hu.
    apply oks_inv in hu as (rl & -> & hrl1 & hrl2). cbn [bind].
    rewrite (len_n (proj1 HD)).
    eapply oks_bind with (P := best3 (m_med st) n).
    - apply foldM_seq with (I := best3 (m_med st)).
      + apply gbest_zero; [auto|apply vL_zero].
      + intros j best hj hb. apply fastmsc_cand_ok with (k := k); auto. congruence.
    - intros best hb. cbn [oks fst snd]. split; [congruence|auto].
  Qed.

  Lemma pms_best_ok k st :
    2 <= k -> q_good k st ->
    oks (foldM (pms_cand M (m_med st) (m_data st)) (seq 0 (mlen M)) (lzero, None))
        (best3 (m_med st) n).
  Proof.
    intros hk hg. rewrite (len_n (proj1 HD)). apply foldM_seq with (I := best3 (m_med st)).
    - apply gbest_zero; [auto|apply vL_zero].
    - intros j best hj hb. apply pms_cand_ok with (k := k); auto.
  Qed.

  Lemma fastmsc_iteration_ok k st :
    1 <= n -> 3 <= k -> q_good k st -> length (m_rl st) = k ->
    oks (fastmsc_iteration M st) (fun c =>
      length (m_rl (match c with Next s => s | Break s => s end)) = k /\ steep3 k st (S (m_iter st)) c).
  Proof.
    intros hn hk hg hl. unfold fastmsc_iteration. fold (inc3 st).
    pose proof (fastmsc_best_ok hk (inc3_good hg) hl) as h.
    apply oks_inv in h as ([rl best] & e & h1 & h2). cbn [fst snd] in *.
    apply bind_ok in e as (rl' & e1 & e). apply bind_ok in e as (best' & e2 & e).
    injection e as -> ->. rewrite e1. cbn [bind]. rewrite e2. cbn [bind].
    assert (hk2 : 2 <= k) by lia.
    eapply oks_mono; [apply (swap_best3_ok rl hn hk2 (inc3_good hg) h2)|].
    intros [s|s] (q1 & q2); (split; [congruence|]); exact q2.
  Qed.

  Lemma pms_iteration_ok k st :
    1 <= n -> 2 <= k -> q_good k st -> oks (pms_iteration M st) (steep3 k st (S (m_iter st))).
  Proof.
    intros hn hk hg. unfold pms_iteration. fold (inc3 st).
    eapply oks_bind; [apply (pms_best_ok hk (inc3_good hg))|]. intros best hb.
    eapply oks_mono; [apply (swap_best3_ok _ hn hk (inc3_good hg) hb)|].
    intros [s|s] (q1 & q2); exact q2.
  Qed.

  (** fastmsc and pammedsil make the same moves *)
  Definition same3 (s1 s2 : mst Nt Lt) : Prop :=
    m_med s1 = m_med s2 /\ m_data s1 = m_data s2 /\ m_loss s1 = m_loss s2 /\
    m_swaps s1 = m_swaps s2 /\ m_iter s1 = m_iter s2.

  Lemma swap_best3_same st1 st2 rl1 rl2 b1 b2 med :
    same3 st1 st2 -> best3 med n b1 -> best3 med n b2 ->
    match swap_best3 M st1 rl1 b1, swap_best3 M st2 rl2 b2 with
    | Ok (Next s1), Ok (Next s2) => same3 s1 s2
    | Ok (Break s1), Ok (Break s2) => same3 s1 s2
    | Panic p1, Panic p2 => p1 = p2
    | _, _ => False
    end.
  Proof.
    intros (h1 & h2 & h3 & h4 & h5) hb1 hb2.
    destruct (gbest_unique hb1 hb2) as [e1 e2]. unfold swap_best3.
    assert (e3 : lltb lzero (fst b1) = lltb lzero (fst b2)).
    { destruct (lltb lzero (fst b1)) eqn:x1; destruct (lltb lzero (fst b2)) eqn:x2; auto.
      - apply lltb_spec in x1. rewrite e2 in x1. apply lltb_spec in x1. congruence.
      - apply lltb_spec in x2. rewrite <- e2 in x2. apply lltb_spec in x2. congruence. }
    rewrite e1, e3, h1, h2, h3, h4, h5.
    destruct (lltb lzero (fst b2)); [|unfold same3; cbn; auto].
    destruct (snd b2) as [[b j]|]; [|auto].
    destruct (do_swap3 M (m_med st2) (m_data st2) b j) as [[[m' d'] l']|p]; cbn [bind]; [|auto].
    destruct (lleb (m_loss st2) l'); unfold same3; cbn; auto.
  Qed.

  Lemma iterations3_same k st1 st2 :
    1 <= n -> 3 <= k -> q_good k st1 -> length (m_rl st1) = k -> same3 st1 st2 ->
    match fastmsc_iteration M st1, pms_iteration M st2 with
    | Ok (Next s1), Ok (Next s2) => same3 s1 s2 /\ q_good k s1 /\ length (m_rl s1) = k
    | Ok (Break s1), Ok (Break s2) => same3 s1 s2
    | _, _ => False
    end.
  Proof.
    intros hn hk hg hl hs. pose proof hs as (h1 & h2 & h3 & h4 & h5).
    pose proof (fastmsc_iteration_ok hn hk hg hl) as hok.
    unfold fastmsc_iteration in *. fold (inc3 st1) in *.
    pose proof (fastmsc_best_ok hk (inc3_good hg) hl) as hb1.
    apply oks_inv in hb1 as ([rl best] & e & hr1 & hb1). cbn [fst snd] in *.
    apply bind_ok in e as (rl' & e1 & e). apply bind_ok in e as (best' & e2 & e).
    injection e as -> ->. rewrite e1 in *. cbn [bind] in *. rewrite e2 in *. cbn [bind] in *.
    unfold pms_iteration. fold (inc3 st2).
    assert (hk2 : 2 <= k) by lia.
    pose proof (pms_best_ok hk2 (inc3_good hg)) as hb2.
    apply oks_inv in hb2 as (best2 & e3 & hb2).
    cbn [inc3 m_med m_data m_loss m_swaps m_iter m_rl] in *.
    rewrite h1, h2 in e3. rewrite e3. cbn [bind].
    assert (hs' : same3 (inc3 st1) (inc3 st2)).
    { unfold same3, inc3. cbn. auto 10. }
    pose proof (swap_best3_same rl (m_rl (inc3 st2)) hs' hb1 hb2) as hsame.
    cbn [inc3 m_rl] in hsame. fold (inc3 st1) in *. fold (inc3 st2) in *.
    destruct (swap_best3 M (inc3 st1) rl best) as [[s1|s1]|]; [| |contradiction].
    - destruct (swap_best3 M (inc3 st2) (m_rl st2) best2) as [[s2|s2]|]; try contradiction.
      cbn [oks] in hok. destruct hok as (q1 & q2 & _). auto.
    - destruct (swap_best3 M (inc3 st2) (m_rl st2) best2) as [[s2|s2]|]; try contradiction. auto.
  Qed.

  Lemma runs3_same k maxiter st1 st2 :
    1 <= n -> 3 <= k -> q_good k st1 -> length (m_rl st1) = k -> same3 st1 st2 ->
    match whileM maxiter (fastmsc_iteration M) st1, whileM maxiter (pms_iteration M) st2 with
    | Ok s1, Ok s2 => same3 s1 s2
    | _, _ => False
    end.
  Proof.
    intros hn hk. revert st1 st2. induction maxiter; intros st1 st2 hg hl hs; [exact hs|].
    cbn [whileM]. pose proof (iterations3_same hn hk hg hl hs) as h.
    destruct (fastmsc_iteration M st1) as [[s1|s1]|]; [| |contradiction];
      destruct (pms_iteration M st2) as [[s2|s2]|]; try contradiction; cbn [bind]; auto.
    destruct h as (q1 & q2 & q3). apply IHmaxiter; auto.
  Qed.

  Definition steep_end (maxiter : nat) (r : pam_result Lt) : Prop :=
    (r_iter r = S (r_swaps r) /\ sil_optimal v n (r_med r)) \/
    (r_iter r = r_swaps r /\ r_iter r = maxiter).

  Lemma steep3_run k med maxiter body (good : mst Nt Lt -> Prop) (f : list nat -> nat) st0 :
    sizes n k -> length med = k -> measure_ok3 k f ->
    (forall st, good st -> q_good k st) ->
    (forall st, good st -> oks (body st) (fun c =>
        good (match c with Next s => s | Break s => s end) /\ steep3 k st (S (m_iter st)) c)) ->
    good st0 -> m_med st0 = med -> m_swaps st0 = 0 -> m_iter st0 = 0 ->
    oks (whileM maxiter body st0) (fun st =>
      good st /\
      let r := mkPR (to_silhouette M (m_loss st)) (assignment3_of (m_data st)) (m_iter st) (m_swaps st) (m_med st) in
      msc_summary med maxiter r /\ own_clusters r /\ steep_end maxiter r /\
      r_swaps r + f (r_med r) <= f med /\
      (r_med r, r_swaps r, r_iter r) = best_swaps (sil_better v n) n med maxiter).
  Proof.
    intros hsz hk hf hgood hbody hg0 hm hs hi. assert (hn : 1 <= n) by (destruct hsz; lia).
    eapply oks_mono.
    - apply steepest with (body := body) (swaps := @m_swaps Nt Lt) (iter := @m_iter Nt Lt)
        (obj := fun st => rtot v n (m_med st)) (good := good)
        (optimal := fun st => sil_optimal v n (m_med st))
        (mu := fun st => f (m_med st)) (core := @m_med Nt Lt) (bestf := sil_best); auto.
      intros st hg. eapply oks_mono; [apply hbody; auto|].
      intros [s|s] [h1 h2].
      + destruct h2 as (q1 & q2 & q3 & q4 & q5 & q6). split; [auto|]. split; [apply rtot_lt; auto|]. split; [|auto].
        pose proof (hgood st hg) as [[i1 i2 i3] g2 g3 g4].
        destruct q1 as [[j1 j2 j3] l2 l3 l4]. apply hf; [split; auto|split; auto|auto].
      + destruct h2 as (q1 & q2 & q3 & q4 & q5 & q6 & q7 & q8). rewrite q3. rewrite q3 in q2. auto 10.
    - intros st [h1 h2 h3 h4 h5 h6 h7 h8]. cbv zeta. split; [auto|].
      pose proof (hgood st h1) as [[i1 i2 i3] g2 g3 g4].
      destruct (assi3_facts i2 i3 g2) as (a1 & a2 & a3).
      cbv beta in *. rewrite hm in *.
      split; [|split; [exact a3|split; [exact h7|split; [exact h6|exact h8]]]].
      constructor; cbn [r_med r_assi r_loss r_swaps r_iter]; auto.
      + rewrite hk. split; auto.
      + apply to_silhouette_ok; auto. rewrite i1. auto.
      + apply rtot_le; auto.
      + intros hp. apply rtot_lt; auto.
      + lia.
      + intros hend. destruct h7 as [[_ h7]|[h7 h7']]; [auto|]. lia.
  Qed.

  Lemma fastmsc_ok med maxiter f :
    sizes n (length med) -> medoids n (length med) med -> 3 <= length med ->
    measure_ok3 (length med) f ->
    oks (fastmsc M med maxiter) (fun r => msc_summary med maxiter r /\ own_clusters r /\
      steep_end maxiter r /\ r_swaps r + f (r_med r) <= f med /\
      (r_med r, r_swaps r, r_iter r) = best_swaps (sil_better v n) n med maxiter).
  Proof.
    intros hs (hl & hnd & hin) hk hf. assert (hn : 1 <= n) by (destruct hs; lia).
    unfold fastmsc.
    replace (length med =? 1) with false by (symmetry; apply Nat.eqb_neq; lia).
    replace (length med =? 2) with false by (symmetry; apply Nat.eqb_neq; lia).
    pose proof (proj1 HD) as HM. destruct (emb_vals HD) as [he hdg].
    assert (hk2 : 2 <= length med) by lia.
    pose proof (initial_assignment3_ok (Lt := Lt) HM True hs hin hk2) as h.
    apply oks_inv in h as ([loss data] & -> & hd & hsum & hown). cbn [bind fst snd] in *.
    eapply oks_bind.
    - apply steep3_run with (med := med) (k := length med) (f := f)
        (good := fun st => q_good (length med) st /\ length (m_rl st) = length med); auto.
      + intros st [h _]. auto.
      + intros st [h1 h2]. eapply oks_mono; [apply (fastmsc_iteration_ok hn hk h1 h2)|].
        intros [s|s] [q1 q2]; (split; [|exact q2]); split; auto; apply q2.
      + cbn. split; [|apply repeat_length]. constructor; cbn; auto.
        * constructor; auto.
        * eauto.
        * eapply ratio_sum_rtot; eauto.
    - intros st [_ h]. exact h.
  Qed.

  Lemma pammedsil_optimize_ok med data maxiter loss f :
    sizes n (length med) -> medoids n (length med) med -> 2 <= length med ->
    data3_ok n D True med data -> data3_own med data -> (vL loss == rtot v n med)%Q ->
    measure_ok3 (length med) f ->
    oks (pammedsil_optimize M med data maxiter loss) (fun r => msc_summary med maxiter r /\ own_clusters r /\
      steep_end maxiter r /\ r_swaps r + f (r_med r) <= f med /\
      (r_med r, r_swaps r, r_iter r) = best_swaps (sil_better v n) n med maxiter).
  Proof.
    intros hs (hl & hnd & hin) hk hd hown hloss hf. unfold pammedsil_optimize.
    assert (hn : 1 <= n) by (destruct hs; lia).
    replace (length med =? 1) with false by (symmetry; apply Nat.eqb_neq; lia).
    eapply oks_bind.
    - apply steep3_run with (med := med) (k := length med) (f := f)
        (good := q_good (length med)); auto.
      + intros st h1. eapply oks_mono; [apply (pms_iteration_ok hn hk h1)|].
        intros [s|s] q; (split; [|exact q]); apply q.
      + constructor; cbn; auto. constructor; auto.
    - intros st [_ h]. exact h.
  Qed.

  Lemma pammedsil_swap_ok med maxiter f :
    sizes n (length med) -> medoids n (length med) med -> 2 <= length med ->
    measure_ok3 (length med) f ->
    oks (pammedsil_swap M med maxiter) (fun r => msc_summary med maxiter r /\ own_clusters r /\
      steep_end maxiter r /\ r_swaps r + f (r_med r) <= f med /\
      (r_med r, r_swaps r, r_iter r) = best_swaps (sil_better v n) n med maxiter).
  Proof.
    intros hs hm hk hf. pose proof hm as (hl & hnd & hin).
    pose proof (proj1 HD) as HM. destruct (emb_vals HD) as [he hdg].
    unfold pammedsil_swap.
    pose proof (initial_assignment3_ok (Lt := Lt) HM True hs hin hk) as h.
    apply oks_inv in h as ([loss data] & -> & hd & hsum & hown). cbn [bind fst snd] in *.
    apply pammedsil_optimize_ok; auto.
    - eauto.
    - eapply ratio_sum_rtot; eauto.
  Qed.

  Lemma fastmsc_pammedsil_swap med maxiter :
    sizes n (length med) -> medoids n (length med) med -> 3 <= length med ->
    exists r, fastmsc (Lt := Lt) M med maxiter = Ok r /\ pammedsil_swap M med maxiter = Ok r.
  Proof.
    intros hs (hl & hnd & hin) hk. assert (hn : 1 <= n) by (destruct hs; lia).
    pose proof (proj1 HD) as HM. destruct (emb_vals HD) as [he hdg].
    unfold fastmsc, pammedsil_swap, pammedsil_optimize.
    replace (length med =? 1) with false by (symmetry; apply Nat.eqb_neq; lia).
    replace (length med =? 2) with false by (symmetry; apply Nat.eqb_neq; lia).
    assert (hk2 : 2 <= length med) by lia.
    pose proof (initial_assignment3_ok (Lt := Lt) HM True hs hin hk2) as h.
    apply oks_inv in h as ([loss data] & -> & hd & hsum & hown). cbn [bind fst snd] in *.
    assert (hg0 : forall rl, q_good (length med) (mkM med data rl loss 0 0 0)).
    { intros rl. constructor; cbn; auto.
      - constructor; auto.
      - eauto.
      - eapply ratio_sum_rtot; eauto. }
    pose proof (runs3_same (k := length med) maxiter
      (st1 := mkM med data (repeat lzero (length med)) loss 0 0 0)
      (st2 := mkM med data [] loss 0 0 0) hn ltac:(lia) (hg0 _) (repeat_length _ _)) as h.
    assert (hsame : same3 (mkM med data (repeat lzero (length med)) loss 0 0 0)
                                (mkM med data [] loss 0 0 0)) by (unfold same3; auto 10).
    specialize (h hsame).
    destruct (whileM maxiter (fastmsc_iteration M) _) as [s1|]; [|contradiction].
    destruct (whileM maxiter (pms_iteration M) _) as [s2|]; [|contradiction].
    destruct h as (q1 & q2 & q3 & q4 & q5). cbn [bind]. eexists. split; [reflexivity|].
    rewrite q1, q2, q3, q4, q5. auto.
  Qed.
End Exact.
