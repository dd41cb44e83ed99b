(** FpFacts.v -- fasterpam and rand_fasterpam: everything about a run from k >= 2 medoids. *)
From Coq Require Import ZArith QArith Lqa Lia.
From Verif Require Import Base Num M_Mat M_Util M_Fasterpam Hoare Spec SpecFacts Laws PamShape
  PamExact Reference LocalSearch.
Set Implicit Arguments.
Open Scope nat_scope.

Section FpShape.
  Context {Nt Lt : Type} `{HNN : NumN Nt} `{HNL : NumL Lt} `{HFN : FromN Nt Lt}.
  Variable M : Mat Nt.
  Variable n : nat.
  Variable D : nat -> nat -> Nt.
  Hypothesis HM : is_matrix M n D.

  (** law-free: a run never panics; structural facts *)
  Lemma fasterpam_order_shape order med maxiter :
    sizes n (length med) -> inr n med -> 2 <= length med -> (forall j, In j order -> j < n) ->
    oks (fasterpam_order (Lt := Lt) M order med maxiter) (fun r =>
      exists st : fpst Nt Lt, fp_inv n D (length med) st /\
        r = mkPR (fp_loss st) (assignment_of (fp_data st)) (fp_iter st) (fp_swaps st) (fp_med st) /\
        fp_iter st <= maxiter /\ fp_swaps st <= length order * fp_iter st /\
        (forall v, Dg n D -> Emb n D v -> NoDup med ->
           NoDup (fp_med st) /\ data_own (fp_med st) (fp_data st)) /\
        (Dg n D -> lfrom (nzero : Nt) = (lzero : Lt) -> near_sum (fp_data st) = Some (fp_loss st))).
  Proof.
    intros hs hin hk ho. unfold fasterpam_order.
    replace (length med =? 1) with false by (symmetry; apply Nat.eqb_neq; lia).
    assert (hn : 1 <= n) by (destruct hs; lia).
    pose proof (initial_assignment_ok (Lt := Lt) HM hs hin hk) as h.
    apply oks_inv in h as ([loss data] & -> & hd & hsum & hown). cbn [bind fst snd] in *.
    assert (hrl : oks (update_removal_loss data (repeat (lzero : Lt) (length med)))
                      (fun rl => length rl = length med)).
    { apply update_removal_loss_len with (n := n) (D := D); auto. apply repeat_length. }
    apply oks_inv in hrl as (rl & -> & hrl). cbn [bind].
    rewrite (len_n HM).
    set (st0 := mkFp med data rl loss n 0 0).
    assert (hi0 : fp_inv n D (length med) st0) by (constructor; auto).
    assert (hk1 : 1 <= length med) by lia.
    assert (hc : oks (whileM maxiter (fp_iteration M order) st0)
        (fun st => fp_iter st <= maxiter /\ fp_swaps st <= length order * fp_iter st)).
    { apply fp_run_count with (n := n) (D := D) (k := length med); auto. }
    assert (hv' : oks (whileM maxiter (fp_iteration M order) st0) (fun st =>
      fp_inv n D (length med) st /\ (forall v, Dg n D -> Emb n D v -> NoDup med ->
                    NoDup (fp_med st) /\ data_own (fp_med st) (fp_data st)) /\
                 (Dg n D -> lfrom (nzero : Nt) = (lzero : Lt) ->
                    near_sum (fp_data st) = Some (fp_loss st)))).
    { apply fp_run_inv with (n := n) (D := D) (k := length med)
        (I := fun st => (forall v, Dg n D -> Emb n D v -> NoDup med ->
                    NoDup (fp_med st) /\ data_own (fp_med st) (fp_data st)) /\
                 (Dg n D -> lfrom (nzero : Nt) = (lzero : Lt) ->
                    near_sum (fp_data st) = Some (fp_loss st))); auto.
      - split; simpl; auto. intros v hg he hnd. split; eauto.
      - intros st j s hi hj [hI1 hI2] hcs.
        inversion hcs as [|r a e1 e2 e3 e4|ch b e1 e2 e3|r a ch b data' rl' loss' e1 e2 e3 e4 e5 e6 e7 e8 e9];
          subst; auto.
        destruct hi as [i1 i2 i3 i4].
        pose proof (do_swap_ok (Lt := Lt) HM hn i2 hj e7 i3) as hs1.
        apply oks_elim with (2 := e8) in hs1. destruct hs1 as (_ & s1 & s2 & s3 & s4).
        cbn [fp_med fp_data fp_loss]. split.
        + intros v hg he hnd. destruct (hI1 v hg he hnd) as [g1 g2].
          assert (hjm : ~ In j (fp_med st)).
          { intros hjin. apply nth_In_iff in hjin as (c & hc1 & hc2).
            pose proof (g2 j r e2 c hc1 hc2) as hc3. congruence. }
          split; [apply NoDup_set_nth; auto|]. eapply s4; eauto.
        + intros hg hz. rewrite <- s2. symmetry. apply near_sum0_near_sum; auto.
          intros r0 hr0. rewrite (s3 r0 hr0). auto. }
    apply oks_inv in hv' as (st & est & h1 & h2 & h3). rewrite est in *. cbn [bind oks] in *.
    exists st. intuition.
  Qed.
End FpShape.

Section FpExact.
  Context {Nt Lt : Type} `{HLL : LossLaws Nt Lt}.
  Variable M : Mat Nt.
  Variable n : nat.
  Variable D : nat -> nat -> Nt.
  Hypothesis HD : diss_matrix M n D.

  Local Notation v := (vals D).

  (** invariant of the search *)
  Record fp_good (k : nat) (st : fpst Nt Lt) : Prop := {
    fg_inv : fp_inv n D k st;
    fg_own : data_own (fp_med st) (fp_data st);
    fg_nodup : NoDup (fp_med st);
    fg_rl : rl_ok (fp_data st) (fp_rl st);
    fg_loss : (vL (fp_loss st) == tdev v n (fp_med st))%Q
  }.

  Definition fp_nonimp (st : fpst Nt Lt) (j : nat) : Prop :=
    forall b, b < length (fp_med st) ->
      (tdev v n (fp_med st) <= tdev v n (swap (fp_med st) b j))%Q.

  (** every measure of medoid lists that drops whenever the total deviation drops *)
  Definition measure_ok (k : nat) (f : list nat -> nat) : Prop :=
    forall med med', medoids n k med -> medoids n k med' ->
      (tdev v n med' < tdev v n med)%Q -> f med' < f med.

  Lemma own_not_in (med : list nat) (data : list (Rec Nt)) j r a :
    data_own med data -> nth_error data j = Some r -> di (near r) = Some a ->
    nth a med 0 <> j -> ~ In j med.
  Proof.
    intros ho hr ha hne hjin. apply nth_In_iff in hjin as (c & hc1 & hc2).
    pose proof (ho j r hr c hc1 hc2) as hc3. congruence.
  Qed.

  Lemma fp_swap_good k st j b data' rl' loss' la sw it :
    1 <= n -> 1 <= k -> j < n -> fp_good k st -> ~ In j (fp_med st) -> b < length (fp_med st) ->
    do_swap M (fp_med st) (fp_data st) b j = Ok (set_nth (fp_med st) b j, data', loss') ->
    update_removal_loss data' (fp_rl st) = Ok rl' ->
    fp_good k (mkFp (set_nth (fp_med st) b j) data' rl' loss' la sw it).
  Proof.
    intros hn hk hj [g1 g2 g3 g4 g5] hjm hb e1 e2.
    pose proof (proj1 HD) as HM.
    pose proof (fp_inv_swap HM it sw la hn hk hj g1 hb e1 e2) as hi.
    pose proof g1 as [i1 i2 i3 i4].
    pose proof (do_swap_ok (Lt := Lt) HM hn i2 hj hb i3) as hs1.
    apply oks_elim with (2 := e1) in hs1. destruct hs1 as (_ & s1 & s2 & s3 & s4).
    destruct (emb_vals HD) as [he hg].
    constructor; cbn [fp_med fp_data fp_rl fp_loss].
    - auto.
    - eapply s4; eauto.
    - apply NoDup_set_nth; auto.
    - assert (hl : length (fp_rl st) = length (set_nth (fp_med st) b j)).
      { rewrite length_set_nth. congruence. }
      pose proof (update_removal_loss_ok HD (fp_rl st) (inr_set_nth b i2 hj) s1 hl) as hu.
      apply oks_elim with (2 := e2) in hu. apply hu.
    - eapply near_sum0_tdev with (b := b); eauto. apply inr_set_nth; auto.
  Qed.

  (** the reference step: the best swap for [j], if it is an improvement *)
  Definition dev_try (m : list nat) (j : nat) : option (list nat) :=
    improve (dev_better v n) (swaps_for m j) m.

  Lemma fp_cand_spec k f st j :
    1 <= n -> 1 <= k -> j < n -> measure_ok k f -> fp_good k st ->
    oks (fp_cand M st j) (fun c => match c with
      | Break s => s = st /\ j = fp_last st
      | Next s => fp_good k s /\ fp_iter s = fp_iter st /\ j <> fp_last st /\
          ((s = st /\ fp_nonimp st j) \/
           ((tdev v n (fp_med s) < tdev v n (fp_med st))%Q /\ f (fp_med s) < f (fp_med st) /\
            fp_last s = j /\ fp_swaps s = S (fp_swaps st) /\ fp_nonimp s j /\ ~ fp_nonimp st j /\
            dev_try (fp_med st) j = Some (fp_med s)))
      end).
  Proof.
    intros hn hk hj hf hg. pose proof hg as [g1 g2 g3 g4 g5]. pose proof g1 as [i1 i2 i3 i4].
    pose proof (proj1 HD) as HM.
    eapply oks_mono; [apply (fp_cand_ok HM hn hk hj g1)|].
    intros c hc.
    assert (hfb : forall change b, find_best_swap M (fp_rl st) (fp_data st) j = Ok (change, b) ->
      b < length (fp_med st) /\
      (vL change == tdev v n (swap (fp_med st) b j) - tdev v n (fp_med st))%Q /\
      (forall c, c < length (fp_med st) ->
         (tdev v n (swap (fp_med st) b j) <= tdev v n (swap (fp_med st) c j))%Q) /\
      (forall c, c < b -> (tdev v n (swap (fp_med st) b j) < tdev v n (swap (fp_med st) c j))%Q)).
    { intros change b e.
      assert (hl : length (fp_rl st) = length (fp_med st)) by congruence.
      assert (hk' : 1 <= length (fp_med st)) by lia.
      pose proof (find_best_swap_ok HD i2 i3 hl hk' hj g4) as hb.
      apply oks_elim with (2 := e) in hb. destruct hb as (b1 & b2 & b3 & b4). auto. }
    destruct hc as [e1|r a e1 e2 e3 e4|ch b e1 e2 e3|r a ch b data' rl' loss' e1 e2 e3 e4 e5 e6 e7 e8 e9].
    - auto.
    - split; [auto|]. split; [auto|]. split; [auto|]. left. split; [auto|].
      intros b hb. apply tdev_swap_medoid; auto. rewrite <- e4. apply nth_In.
      destruct (rec2_near (proj2 i3 j r e2)) as (a' & ea & ha). congruence.
    - split; [auto|]. split; [auto|]. split; [auto|]. left. split; [auto|].
      intros c hc. destruct (hfb _ _ e2) as (b1 & b2 & b3 & _).
      apply lleb_spec in e3. rewrite vL_zero in e3. specialize (b3 c hc). lra.
    - destruct (hfb _ _ e5) as (b1 & b2 & b3 & b4).
      assert (hjm : ~ In j (fp_med st)) by eauto using own_not_in.
      assert (hg' := fp_swap_good j (S (fp_swaps st)) (fp_iter st) hn hk hj hg hjm e7 e8 e9).
      split; [auto|]. split; [auto|]. split; [auto|]. right. cbn [fp_med fp_last fp_swaps].
      assert (hlt : (tdev v n (set_nth (fp_med st) b j) < tdev v n (fp_med st))%Q).
      { rewrite <- swap_set_nth by auto. apply Qnot_le_lt. intros hle.
        assert (hx : lleb lzero ch = true); [|congruence].
        apply lleb_spec. rewrite vL_zero, b2. lra. }
      split; [auto|]. split; [|split; [auto|split; [auto|split; [|split]]]].
      + apply hf; auto.
        * split; auto.
        * destruct hg' as [[j1 j2 _ _] _ j3 _ _]. split; auto.
      + intros c hc. apply tdev_swap_medoid; auto. cbn [fp_med].
        rewrite <- (nth_set_nth_eq (fp_med st) j 0 e7) at 1. apply nth_In.
        rewrite length_set_nth. auto.
      + intros hni. specialize (hni b e7). rewrite swap_set_nth in hni by auto. lra.
      + unfold dev_try. rewrite <- swap_set_nth in hlt |- * by auto.
        apply eager_some with (f := tdev v n); auto.
  Qed.

  Lemma fp_initial med :
    sizes n (length med) -> medoids n (length med) med -> 2 <= length med ->
    exists loss data (rl : list Lt),
      initial_assignment M med = Ok (loss, data) /\
      update_removal_loss data (repeat lzero (length med)) = Ok rl /\
      forall la, fp_good (length med) (mkFp med data rl loss la 0 0).
  Proof.
    intros hs (_ & hnd & hin) hk. pose proof (proj1 HD) as HM. destruct (emb_vals HD) as [he hg].
    pose proof (initial_assignment_ok (Lt := Lt) HM hs hin hk) as h.
    apply oks_inv in h as ([loss data] & e & hd & hsum & hown). cbn [fst snd] in *.
    assert (hr : length (repeat (lzero : Lt) (length med)) = length med) by apply repeat_length.
    pose proof (update_removal_loss_ok HD _ hin hd hr) as hu.
    apply oks_inv in hu as (rl & er & hl & hrl).
    exists loss, data, rl. split; [auto|]. split; [auto|]. intros la.
    constructor; cbn [fp_med fp_data fp_rl fp_loss]; auto.
    - constructor; auto.
    - eauto.
    - eapply near_sum_tdev; eauto.
  Qed.

  Lemma measure_better k : measure_ok k (better (tdev v n) n k).
  Proof. intros med med' _ (h1 & _ & h2) hlt. apply better_lt; auto. Qed.

  (** The summary of a run. *)
  Record fp_summary (order med : list nat) (maxiter : nat) (r : pam_result Lt) : Prop := {
    fs_medoids : medoids n (length med) (r_med r);
    fs_assi_len : length (r_assi r) = n;
    fs_nearest : forall o, o < n -> nearest v o (r_med r) (nth o (r_assi r) 0);
    fs_own : forall c, c < length med -> nth (nth c (r_med r) 0) (r_assi r) 0 = c;
    fs_loss : (vL (r_loss r) == tdev v n (r_med r))%Q;
    fs_obj : (tdev v n (r_med r) <= tdev v n med)%Q;
    fs_strict : 0 < r_swaps r -> (tdev v n (r_med r) < tdev v n med)%Q;
    fs_same : r_swaps r = 0 -> r_med r = med;
    fs_iter : r_iter r <= maxiter;
    fs_iterswap : r_iter r <= S (r_swaps r);
    fs_opt : r_iter r < maxiter \/ (r_swaps r = 0 /\ 0 < maxiter) ->
      forall j, In j order -> forall b, b < length med ->
      (tdev v n (r_med r) <= tdev v n (swap (r_med r) b j))%Q;
    fs_fix : swap_optimal v n med -> 0 < maxiter -> r_swaps r = 0 /\ r_iter r = 1;
    fs_ref : (r_med r, r_swaps r, r_iter r) = eager_swaps (dev_better v n) order med maxiter
  }.

  Lemma fp_good_assi k st : fp_good k st ->
    length (assignment_of (fp_data st)) = n /\
    (forall o, o < n -> nearest v o (fp_med st) (nth o (assignment_of (fp_data st)) 0)) /\
    (forall c, c < k -> nth (nth c (fp_med st) 0) (assignment_of (fp_data st)) 0 = c).
  Proof.
    intros [[i1 i2 [hl hd] i4] g2 g3 g4 g5].
    assert (hn : forall o, o < n -> exists r, nth_error (fp_data st) o = Some r /\
               nth o (assignment_of (fp_data st)) 0 = as_usize (di (near r))).
    { intros o ho. destruct (nth_error_ex (fp_data st) (i := o)) as [r hr]; [lia|].
      exists r. split; auto. apply nth_error_nth. unfold assignment_of.
      rewrite nth_error_map, hr. auto. }
    split; [unfold assignment_of; rewrite map_length; auto|]. split.
    - intros o ho. destruct (hn o ho) as (r & hr & ->).
      destruct (rec2_x HD (hd o r hr)) as (a & s & hx).
      destruct (rec_x_near hx) as [_ hnear].
      destruct hx as (_ & _ & _ & -> & _). auto.
    - intros c hc. assert (hcn : nth c (fp_med st) 0 < n) by (apply inr_nth; auto; lia).
      destruct (hn _ hcn) as (r & hr & ->).
      rewrite (g2 _ r hr c); auto. lia.
  Qed.

  Lemma fasterpam_order_ok order med maxiter (f : list nat -> nat) :
    sizes n (length med) -> medoids n (length med) med -> 2 <= length med ->
    NoDup order -> (forall j, In j order -> j < n) -> measure_ok (length med) f ->
    oks (fasterpam_order M order med maxiter) (fun r =>
      fp_summary order med maxiter r /\ r_swaps r + f (r_med r) <= f med).
  Proof.
    intros hs hm hk hnd ho hf. unfold fasterpam_order.
    replace (length med =? 1) with false by (symmetry; apply Nat.eqb_neq; lia).
    assert (hn : 1 <= n) by (destruct hs; lia).
    destruct (fp_initial hs hm hk) as (loss & data & rl & e1 & e2 & hg0).
    rewrite e1. cbn [bind]. rewrite e2. cbn [bind].
    pose proof (proj1 HD) as HM. rewrite (len_n HM). specialize (hg0 n).
    set (st0 := mkFp med data rl loss n 0 0) in *.
    eapply oks_bind.
    - apply first_improvement with (st0 := st0) (order := order) (cand := fp_cand M)
        (last := @fp_last Nt Lt) (swaps := @fp_swaps Nt Lt) (iter := @fp_iter Nt Lt)
        (obj := fun st => tdev v n (fp_med st)) (good := fp_good (length med))
        (nonimp := fp_nonimp) (mu := fun st => f (fp_med st)) (core := @fp_med Nt Lt)
        (tryf := dev_try)
        (inc := fun st => mkFp (fp_med st) (fp_data st) (fp_rl st) (fp_loss st) (fp_last st)
                               (fp_swaps st) (S (fp_iter st)))
        (stop := fun st st' => lleb (fp_loss st) (fp_loss st')); auto.
      + intros st hg. split; [destruct hg as [[] ? ? ? ?]; constructor; auto; constructor; auto|].
        cbn. auto 10.
      + intros st st' hg hg' hlt. destruct (lleb (fp_loss st) (fp_loss st')) eqn:e; auto.
        apply lleb_spec in e. rewrite (fg_loss hg), (fg_loss hg') in e. lra.
      + intros st j hg hj hni. apply eager_none with (f := tdev v n); auto.
      + intros st j hg hj. apply fp_cand_spec; auto. lia.
      + intros hin. apply ho in hin. simpl in hin. lia.
    - intros st h. cbn [oks]. destruct h as [h1 h2 h3 h4 h5 h6 h7 h8 h9 h10 h11].
      destruct (fp_good_assi h1) as (a1 & a2 & a3).
      pose proof h1 as [[i1 i2 i3 i4] g2 g3 g4 g5].
      split; [constructor; cbn [r_med r_assi r_loss r_swaps r_iter]; auto|exact h6].
      + split; auto.
      + intros [hlt|[hsw hmi]] j hj b hb.
        * apply h8; auto. congruence.
        * apply h9; auto. congruence.
      + intros hopt hmi. rewrite h10; auto.
        intros j hj b hb. apply hopt; auto.
  Qed.
End FpExact.
