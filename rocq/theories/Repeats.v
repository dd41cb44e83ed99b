(** Repeats.v -- fasterpam, fastpam1 and the swap phase of pam started with medoids which need not be different. *)
From Coq Require Import ZArith QArith Lqa Lia.
From Verif Require Import Base Num M_Mat M_Util M_Fasterpam M_Pam Hoare Spec SpecFacts Laws PamShape
  PamExact Reference LocalSearch FpFacts PamFacts ChooseFacts.
Set Implicit Arguments.
Open Scope nat_scope.

Section Repeats.
  Context {Nt Lt : Type} `{HLL : LossLaws Nt Lt}.
  Variable M : Mat Nt.
  Variable n : nat.
  Variable D : nat -> nat -> Nt.
  Hypothesis HD : diss_matrix M n D.
  Local Notation v := (vals D).
  Local Notation delta := (PamFacts.delta n D).
  Local Notation best_ok := (PamFacts.best_ok n D).
  Local Notation dev_best := (PamFacts.dev_best n D).
  Local Notation dev_try := (FpFacts.dev_try n D).
  Local Notation fp_nonimp := (FpFacts.fp_nonimp n D).

  (** every measure of lists of [k] objects that drops whenever the total deviation drops *)
  Definition measure_r (k : nat) (f : list nat -> nat) : Prop :=
    forall med med', length med = k -> inr n med -> length med' = k -> inr n med' ->
      (tdev v n med' < tdev v n med)%Q -> f med' < f med.

  Lemma measure_r_better k : measure_r k (better (tdev v n) n k).
  Proof. intros med med' _ _ h1 h2 hlt. apply better_lt; auto. Qed.

  (** what a run returns *)
  Record run_r (order med : list nat) (maxiter : nat) (r : pam_result Lt) : Prop := {
    rr_len : length (r_med r) = length med;
    rr_inr : inr n (r_med r);
    rr_assi_len : length (r_assi r) = n;
    rr_nearest : forall o, o < n -> nearest v o (r_med r) (nth o (r_assi r) 0);
    rr_loss : (vL (r_loss r) == tdev v n (r_med r))%Q;
    rr_obj : (tdev v n (r_med r) <= tdev v n med)%Q;
    rr_strict : 0 < r_swaps r -> (tdev v n (r_med r) < tdev v n med)%Q;
    rr_same : r_swaps r = 0 -> r_med r = med;
    rr_iter : r_iter r <= maxiter;
    rr_iterswap : r_iter r <= S (r_swaps r);
    rr_opt : r_iter r < maxiter ->
      forall j, In j order -> forall b, b < length med ->
      (tdev v n (r_med r) <= tdev v n (swap (r_med r) b j))%Q
  }.

  (** ** fasterpam *)
  Record fq_good (k : nat) (st : fpst Nt Lt) : Prop := {
    fq_inv : fp_inv n D k st;
    fq_rl : rl_ok (fp_data st) (fp_rl st);
    fq_loss : (vL (fp_loss st) == tdev v n (fp_med st))%Q
  }.

  Lemma fq_swap_good k st j b data' rl' loss' la sw it :
    1 <= n -> 1 <= k -> j < n -> fq_good k st -> b < length (fp_med st) ->
    do_swap M (fp_med st) (fp_data st) b j = Ok (set_nth (fp_med st) b j, data', loss') ->
    update_removal_loss data' (fp_rl st) = Ok rl' ->
    fq_good k (mkFp (set_nth (fp_med st) b j) data' rl' loss' la sw it).
  Proof.
    intros hn hk hj [g1 g4 g5] hb e1 e2.
    pose proof (proj1 HD) as HM.
    pose proof (fp_inv_swap HM it sw la hn hk hj g1 hb e1 e2) as hi.
    pose proof g1 as [i1 i2 i3 i4].
    pose proof (do_swap_ok (Lt := Lt) HM hn i2 hj hb i3) as hs1.
    apply oks_elim with (2 := e1) in hs1. destruct hs1 as (_ & s1 & s2 & s3 & s4).
    destruct (emb_vals HD) as [he hg].
    constructor; cbn [fp_med fp_data fp_rl fp_loss].
    - auto.
    - assert (hl : length (fp_rl st) = length (set_nth (fp_med st) b j)).
      { rewrite length_set_nth. congruence. }
      pose proof (update_removal_loss_ok HD (fp_rl st) (inr_set_nth b i2 hj) s1 hl) as hu.
      apply oks_elim with (2 := e2) in hu. apply hu.
    - eapply near_sum0_tdev with (b := b); eauto. apply inr_set_nth; auto.
  Qed.

  Lemma fq_cand_spec k f st j :
    1 <= n -> 1 <= k -> j < n -> measure_r k f -> fq_good k st ->
    oks (fp_cand M st j) (fun c => match c with
      | Break s => s = st /\ j = fp_last st
      | Next s => fq_good k s /\ fp_iter s = fp_iter st /\ j <> fp_last st /\
          ((s = st /\ fp_nonimp st j) \/
           ((tdev v n (fp_med s) < tdev v n (fp_med st))%Q /\ f (fp_med s) < f (fp_med st) /\
            fp_last s = j /\ fp_swaps s = S (fp_swaps st) /\ fp_nonimp s j /\ ~ fp_nonimp st j /\
            dev_try (fp_med st) j = Some (fp_med s)))
      end).
  Proof.
    intros hn hk hj hf hg. pose proof hg as [g1 g4 g5]. pose proof g1 as [i1 i2 i3 i4].
    pose proof (proj1 HD) as HM.
    eapply oks_mono; [apply (fp_cand_ok HM hn hk hj g1)|].
    intros c hc.
    assert (hfb : forall change b, find_best_swap M (fp_rl st) (fp_data st) j = Ok (change, b) ->
      b < length (fp_med st) /\
      (vL change == tdev v n (swap (fp_med st) b j) - tdev v n (fp_med st))%Q /\
      (forall c, c < length (fp_med st) ->
         (tdev v n (swap (fp_med st) b j) <= tdev v n (swap (fp_med st) c j))%Q) /\
      (forall c, c < b -> (tdev v n (swap (fp_med st) b j) < tdev v n (swap (fp_med st) c j))%Q)).
    { intros change b e.
      assert (hl : length (fp_rl st) = length (fp_med st)) by congruence.
      assert (hk' : 1 <= length (fp_med st)) by lia.
      pose proof (find_best_swap_ok HD i2 i3 hl hk' hj g4) as hb.
      apply oks_elim with (2 := e) in hb. destruct hb as (b1 & b2 & b3 & b4). auto. }
    destruct hc as [e1|r a e1 e2 e3 e4|ch b e1 e2 e3|r a ch b data' rl' loss' e1 e2 e3 e4 e5 e6 e7 e8 e9].
    - auto.
    - split; [auto|]. split; [auto|]. split; [auto|]. left. split; [auto|].
      intros b hb. apply tdev_swap_medoid; auto. rewrite <- e4. apply nth_In.
      destruct (rec2_near (proj2 i3 j r e2)) as (a' & ea & ha). congruence.
    - split; [auto|]. split; [auto|]. split; [auto|]. left. split; [auto|].
      intros c hc. destruct (hfb _ _ e2) as (b1 & b2 & b3 & _).
      apply lleb_spec in e3. rewrite vL_zero in e3. specialize (b3 c hc). lra.
    - destruct (hfb _ _ e5) as (b1 & b2 & b3 & b4).
      assert (hjm : ~ In j (fp_med st)).
      { intros hjm. pose proof (tdev_swap_medoid v n (fp_med st) j b1 hjm) as h. apply (Bool.eq_true_false_abs _) with (2 := e6).
        apply lleb_spec. rewrite vL_zero, b2. lra. }
      assert (hg' := fq_swap_good j (S (fp_swaps st)) (fp_iter st) hn hk hj hg e7 e8 e9).
      split; [auto|]. split; [auto|]. split; [auto|]. right. cbn [fp_med fp_last fp_swaps].
      assert (hlt : (tdev v n (set_nth (fp_med st) b j) < tdev v n (fp_med st))%Q).
      { rewrite <- swap_set_nth by auto. apply Qnot_le_lt. intros hle.
        assert (hx : lleb lzero ch = true); [|congruence].
        apply lleb_spec. rewrite vL_zero, b2. lra. }
      split; [auto|]. split; [|split; [auto|split; [auto|split; [|split]]]].
      + apply hf; auto.
        * destruct hg' as [[j1 j2 _ _] _ _]. auto.
        * destruct hg' as [[j1 j2 _ _] _ _]. auto.
      + intros c hc. apply tdev_swap_medoid; auto. cbn [fp_med].
        rewrite <- (nth_set_nth_eq (fp_med st) j 0 e7) at 1. apply nth_In.
        rewrite length_set_nth. auto.
      + intros hni. specialize (hni b e7). rewrite swap_set_nth in hni by auto. lra.
      + unfold dev_try. rewrite <- swap_set_nth in hlt |- * by auto.
        apply eager_some with (f := tdev v n); auto.
  Qed.

  Lemma fq_initial med :
    sizes n (length med) -> inr n med -> 2 <= length med ->
    exists loss data (rl : list Lt),
      initial_assignment M med = Ok (loss, data) /\
      update_removal_loss data (repeat lzero (length med)) = Ok rl /\
      forall la, fq_good (length med) (mkFp med data rl loss la 0 0).
  Proof.
    intros hs hin hk. pose proof (proj1 HD) as HM. destruct (emb_vals HD) as [he hg].
    pose proof (initial_assignment_ok (Lt := Lt) HM hs hin hk) as h.
    apply oks_inv in h as ([loss data] & e & hd & hsum & hown). cbn [fst snd] in *.
    assert (hr : length (repeat (lzero : Lt) (length med)) = length med) by apply repeat_length.
    pose proof (update_removal_loss_ok HD _ hin hd hr) as hu.
    apply oks_inv in hu as (rl & er & hl & hrl).
    exists loss, data, rl. split; [auto|]. split; [auto|]. intros la.
    constructor; cbn [fp_med fp_data fp_rl fp_loss]; auto.
    - constructor; auto.
    - eapply near_sum_tdev; eauto.
  Qed.

  Lemma fq_good_assi k st : fq_good k st ->
    length (assignment_of (fp_data st)) = n /\
    (forall o, o < n -> nearest v o (fp_med st) (nth o (assignment_of (fp_data st)) 0)).
  Proof.
    intros [[i1 i2 [hl hd] i4] g4 g5].
    assert (hn : forall o, o < n -> exists r, nth_error (fp_data st) o = Some r /\
               nth o (assignment_of (fp_data st)) 0 = as_usize (di (near r))).
    { intros o ho. destruct (nth_error_ex (fp_data st) (i := o)) as [r hr]; [lia|].
      exists r. split; auto. apply nth_error_nth. unfold assignment_of.
      rewrite nth_error_map, hr. auto. }
    split; [unfold assignment_of; rewrite map_length; auto|].
    - intros o ho. destruct (hn o ho) as (r & hr & ->).
      destruct (rec2_x HD (hd o r hr)) as (a & s & hx).
      destruct (rec_x_near hx) as [_ hnear].
      destruct hx as (_ & _ & _ & -> & _). auto.
  Qed.

  Lemma fasterpam_repeats order med maxiter (f : list nat -> nat) :
    sizes n (length med) -> inr n med -> 2 <= length med ->
    NoDup order -> (forall j, In j order -> j < n) -> measure_r (length med) f ->
    oks (fasterpam_order M order med maxiter) (fun r =>
      run_r order med maxiter r /\ (r_med r, r_swaps r, r_iter r) = eager_swaps (dev_better v n) order med maxiter /\ r_swaps r + f (r_med r) <= f med).
  Proof.
    intros hs hm hk hnd ho hf. unfold fasterpam_order.
    replace (length med =? 1) with false by (symmetry; apply Nat.eqb_neq; lia).
    assert (hn : 1 <= n) by (destruct hs; lia).
    destruct (fq_initial hs hm hk) as (loss & data & rl & e1 & e2 & hg0).
    rewrite e1. cbn [bind]. rewrite e2. cbn [bind].
    pose proof (proj1 HD) as HM. rewrite (len_n HM). specialize (hg0 n).
    set (st0 := mkFp med data rl loss n 0 0) in *.
    eapply oks_bind.
    - apply first_improvement with (st0 := st0) (order := order) (cand := fp_cand M)
        (last := @fp_last Nt Lt) (swaps := @fp_swaps Nt Lt) (iter := @fp_iter Nt Lt)
        (obj := fun st => tdev v n (fp_med st)) (good := fq_good (length med))
        (nonimp := fp_nonimp) (mu := fun st => f (fp_med st)) (core := @fp_med Nt Lt)
        (tryf := dev_try)
        (inc := fun st => mkFp (fp_med st) (fp_data st) (fp_rl st) (fp_loss st) (fp_last st)
                               (fp_swaps st) (S (fp_iter st)))
        (stop := fun st st' => lleb (fp_loss st) (fp_loss st')); auto.
      + intros st hg. split; [destruct hg as [[] ? ?]; constructor; auto; constructor; auto|].
        cbn. auto 10.
      + intros st st' hg hg' hlt. destruct (lleb (fp_loss st) (fp_loss st')) eqn:e; auto.
        apply lleb_spec in e. rewrite (fq_loss hg), (fq_loss hg') in e. lra.
      + intros st j hg hj hni. apply eager_none with (f := tdev v n); auto.
      + intros st j hg hj. apply fq_cand_spec; auto. lia.
      + intros hin. apply ho in hin. simpl in hin. lia.
    - intros st h. cbn [oks]. destruct h as [h1 h2 h3 h4 h5 h6 h7 h8 h9 h10 h11].
      destruct (fq_good_assi h1) as (a1 & a2).
      pose proof h1 as [[i1 i2 i3 i4] g4 g5].
      split; [constructor; cbn [r_med r_assi r_loss r_swaps r_iter]; auto|split; [exact h11|exact h6]].
      + intros hlt j hj b hb. apply h8; auto. congruence.
  Qed.

  (** ** fastpam1 and pam *)
  Record q_good (k : nat) (st : pst Nt Lt) : Prop := {
    qg_inv : p_inv n D k st;
    qg_loss : (vL (p_loss st) == tdev v n (p_med st))%Q
  }.

  Lemma q_fastpam1_cand k st rl best j :
    1 <= k -> q_good k st -> length rl = k -> rl_ok (p_data st) rl -> j < n ->
    best_ok (p_med st) j best ->
    oks (fastpam1_cand M (p_med st) (p_data st) rl best j) (best_ok (p_med st) (S j)).
  Proof.
    intros hk [[i1 i2 i3] g4] hl hrl hj hb. unfold fastpam1_cand.
    destruct (nth_error_ex (p_data st) (i := j)) as [r hr]; [destruct i3; lia|].
    rewrite (idx_some _ _ hr). cbn [bind].
    destruct (rec2_near (proj2 i3 j r hr)) as (a & ea & ha).
    rewrite ea. cbn [as_usize]. rewrite idx_nth with (d := 0) by auto. cbn [bind].
    destruct (j =? nth a (p_med st) 0) eqn:em.
    { apply Nat.eqb_eq in em. cbn [oks]. apply best_ok_medoid; auto. rewrite em. apply nth_In. auto. }
    assert (hl' : length rl = length (p_med st)) by congruence.
    assert (hk' : 1 <= length (p_med st)) by lia.
    pose proof (find_best_swap_ok HD i2 i3 hl' hk' hj hrl) as hf.
    apply oks_inv in hf as ([change b] & -> & b1 & b2 & b3 & b4). cbn [fst snd bind] in *.
    destruct (lleb (fst best) change) eqn:e; cbn [oks].
    - apply lleb_spec in e. apply best_ok_keep; auto. intros c hc. specialize (b3 c hc).
      unfold delta. lra.
    - assert (hlt : (vL change < vL (fst best))%Q).
      { apply Qnot_le_lt. intros h. apply lleb_spec in h. congruence. }
      apply best_ok_new with (best := best); auto.
      + intros c hc. specialize (b3 c hc). unfold delta. lra.
      + intros c hc. specialize (b4 c hc). unfold delta. lra.
  Qed.

  Lemma q_pam_cand k st best j :
    q_good k st -> j < n -> best_ok (p_med st) j best ->
    oks (pam_cand M (p_med st) (p_data st) best j) (best_ok (p_med st) (S j)).
  Proof.
    intros [[i1 i2 i3] g4] hj hb. unfold pam_cand.
    destruct (nth_error_ex (p_data st) (i := j)) as [r hr]; [destruct i3; lia|].
    rewrite (idx_some _ _ hr). cbn [bind].
    destruct (rec2_near (proj2 i3 j r hr)) as (a & ea & ha).
    rewrite ea. cbn [as_usize]. rewrite idx_nth with (d := 0) by auto. cbn [bind].
    destruct (j =? nth a (p_med st) 0) eqn:em.
    { apply Nat.eqb_eq in em. cbn [oks]. apply best_ok_medoid; auto. rewrite em. apply nth_In. auto. }
    unfold find_best_swap_pam. rewrite (idx_some _ _ hr). cbn [bind].
    assert (hn : okN (dd (near r))).
    { destruct (rec2_x HD (proj2 i3 j r hr)) as (a' & s' & h1 & _ & _ & _ & _ & -> & _).
      apply okD with (1 := HD); auto using inr_nth. }
    eapply oks_bind.
    - apply foldM_seq with (I := fun t (p : Lt * option nat) =>
        match snd p with
        | None => (vL (fst p) == 0)%Q /\ forall c, c < t -> (0 <= delta (p_med st) c j)%Q
        | Some b => b < t /\ (vL (fst p) == delta (p_med st) b j)%Q /\ (delta (p_med st) b j < 0)%Q /\
            (forall c, c < t -> (delta (p_med st) b j <= delta (p_med st) c j)%Q) /\
            (forall c, c < b -> (delta (p_med st) b j < delta (p_med st) c j)%Q)
        end).
      + cbn [fst snd]. split; [apply vL_zero|]. intros; lia.
      + intros m p hm hp.
        eapply oks_bind; [eapply pam_change_ok with (med := p_med st) (r := r); eauto|].
        { rewrite vL_neg, vL_from by auto. reflexivity. }
        intros acc hacc. cbv beta in hacc. cbn [oks]. destruct (lltb acc (fst p)) eqn:el.
        * apply lltb_spec in el. cbn [fst snd]. destruct (snd p) as [b|] eqn:es.
          -- destruct hp as (p1 & p2 & p3 & p4 & p5).
             split; [lia|]. split; [auto|]. split; [lra|]. split.
             ++ intros c hc. destruct (Nat.eq_dec c m) as [->|]; [lra|].
                specialize (p4 c ltac:(lia)). lra.
             ++ intros c hc. specialize (p4 c hc). lra.
          -- destruct hp as (p1 & p2). split; [lia|]. split; [auto|]. split; [lra|]. split.
             ++ intros c hc. destruct (Nat.eq_dec c m) as [->|]; [lra|].
                specialize (p2 c ltac:(lia)). lra.
             ++ intros c hc. specialize (p2 c hc). lra.
        * assert (hle : (vL (fst p) <= vL acc)%Q).
          { apply Qnot_lt_le. intros h. apply lltb_spec in h. congruence. }
          destruct (snd p) as [b|] eqn:es.
          -- destruct hp as (p1 & p2 & p3 & p4 & p5).
             split; [lia|]. split; [auto|]. split; [auto|]. split; [|auto].
             intros c hc. destruct (Nat.eq_dec c m) as [->|]; [lra|]. apply p4. lia.
          -- destruct hp as (p1 & p2). split; [auto|].
             intros c hc. destruct (Nat.eq_dec c m) as [->|]; [lra|]. apply p2. lia.
    - assert (h0 : (vL (fst best) <= 0)%Q).
      { destruct hb as [(_ & h & _)|(b0 & j0 & _ & _ & _ & h4 & h5 & _)]; lra. }
      intros [change ob] hp. cbn [fst snd] in hp.
      destruct (lleb (fst best) change) eqn:e; cbn [oks].
      + apply lleb_spec in e. apply best_ok_keep; auto. intros c hc.
        destruct ob as [b|].
        * destruct hp as (p1 & p2 & p3 & p4 & p5). specialize (p4 c hc). lra.
        * destruct hp as (p1 & p2). specialize (p2 c hc). lra.
      + assert (hlt : (vL change < vL (fst best))%Q).
        { apply Qnot_le_lt. intros h. apply lleb_spec in h. congruence. }
        destruct ob as [b|].
        * destruct hp as (p1 & p2 & p3 & p4 & p5). apply best_ok_new with (best := best); auto.
        * destruct hp as (p1 & p2). lra.
  Qed.

  (** one iteration: the best swap is performed, or there is none *)
  Definition q_step (k : nat) (st : pst Nt Lt) (c : ctl (pst Nt Lt)) : Prop :=
    match c with
    | Break s => q_good k s /\ swap_optimal v n (p_med s) /\ p_med s = p_med st /\
                 p_data s = p_data st /\ p_loss s = p_loss st /\
                 p_swaps s = p_swaps st /\ p_iter s = S (p_iter st) /\ dev_best (p_med st) = None
    | Next s => q_good k s /\ (exists b j, b < k /\ j < n /\ p_med s = swap (p_med st) b j /\
                  forall b' j', b' < k -> j' < n -> (tdev v n (p_med s) <= tdev v n (swap (p_med st) b' j'))%Q) /\
                (tdev v n (p_med s) < tdev v n (p_med st))%Q /\
                p_swaps s = S (p_swaps st) /\ p_iter s = S (p_iter st) /\ dev_best (p_med st) = Some (p_med s)
    end.

  Lemma q_swap_best k st rl best :
    1 <= n -> q_good k st -> best_ok (p_med st) n best ->
    oks (swap_best M st rl best) (fun c =>
      p_rl (match c with Next s => s | Break s => s end) = rl /\
      match c with
      | Break s => q_good k s /\ swap_optimal v n (p_med s) /\ p_med s = p_med st /\
                   p_data s = p_data st /\ p_loss s = p_loss st /\
                   p_swaps s = p_swaps st /\ p_iter s = p_iter st /\ dev_best (p_med st) = None
      | Next s => q_good k s /\ (exists b j, b < k /\ j < n /\ p_med s = swap (p_med st) b j /\
                    forall b' j', b' < k -> j' < n -> (tdev v n (p_med s) <= tdev v n (swap (p_med st) b' j'))%Q) /\
                  (tdev v n (p_med s) < tdev v n (p_med st))%Q /\
                  p_swaps s = S (p_swaps st) /\ p_iter s = p_iter st /\ dev_best (p_med st) = Some (p_med s)
      end).
  Proof.
    intros hn hg hb. pose proof hg as [[i1 i2 i3] g4]. unfold swap_best.
    pose proof (proj1 HD) as HM. destruct (emb_vals HD) as [he hdg].
    destruct hb as [(h1 & h2 & h3)|(b & j & h1 & h2 & h3 & h4 & h5 & h6 & h7 & h8)].
    - assert (e : lltb (fst best) lzero = false).
      { destruct (lltb (fst best) lzero) eqn:e; auto. apply lltb_spec in e.
        rewrite vL_zero in e. lra. }
      rewrite e. cbn [oks]. cbn. split; [auto|]. split; [constructor; auto; constructor; auto|].
      assert (hopt : forall b j, b < length (p_med st) -> j < n ->
                (tdev v n (p_med st) <= tdev v n (swap (p_med st) b j))%Q).
      { intros b j hb hj. specialize (h3 j b hj hb). unfold delta in h3. lra. }
      split; [exact hopt|]. do 5 (split; [auto|]).
      apply steep_none with (f := tdev v n); auto.
    - assert (e : lltb (fst best) lzero = true).
      { apply lltb_spec. rewrite vL_zero. lra. }
      rewrite e, h1.
      assert (hjm : ~ In j (p_med st)).
      { intros hjm. pose proof (tdev_swap_medoid v n (p_med st) j h2 hjm). unfold delta in h5. lra. }
      pose proof (do_swap_ok (Lt := Lt) HM hn i2 h3 h2 i3) as hs.
      apply oks_inv in hs as ([[med' data'] loss'] & -> & -> & s1 & s2 & s3 & s4). cbn [bind].
      assert (hloss : (vL loss' == tdev v n (set_nth (p_med st) b j))%Q).
      { eapply near_sum0_tdev with (b := b); eauto. apply inr_set_nth; auto. }
      assert (hlt : (tdev v n (set_nth (p_med st) b j) < tdev v n (p_med st))%Q).
      { unfold delta in h5. rewrite swap_set_nth in h5 by auto. lra. }
      assert (e2 : lleb (p_loss st) loss' = false).
      { destruct (lleb (p_loss st) loss') eqn:e2; auto. apply lleb_spec in e2. lra. }
      rewrite e2. cbn [oks p_rl p_med p_data p_loss p_swaps p_iter].
      split; [auto|]. split; [|split; [|split; [auto|split; [auto|split; [auto|]]]]].
      + constructor; cbn [p_med p_data p_loss].
        * constructor; cbn [p_med p_data]; auto; [rewrite length_set_nth; auto|apply inr_set_nth; auto].
        * auto.
      + exists b, j. rewrite swap_set_nth by auto. split; [lia|]. split; [auto|]. split; [auto|].
        intros b' j' hb' hj'. rewrite <- swap_set_nth by auto.
        specialize (h6 j' b' hj' ltac:(lia)). unfold delta in h6. lra.
      + unfold dev_best. rewrite <- swap_set_nth in hlt |- * by auto. unfold delta in *.
        apply steep_some with (f := tdev v n); auto.
        * intros j' c hj' _ hc. specialize (h6 j' c hj' hc). lra.
        * intros j' c hj' _ hc. specialize (h7 j' c hj' hc). lra.
        * intros c hc. specialize (h8 c hc). lra.
  Qed.

  Lemma q_inc k st : q_good k st -> q_good k (inc_iter st).
  Proof. intros [[] ?]. constructor; auto. constructor; auto. Qed.

  Lemma q_fastpam1_best k st :
    1 <= k -> q_good k st -> length (p_rl st) = k ->
    oks (rl <- update_removal_loss (p_data st) (p_rl st) ;;
         best <- foldM (fastpam1_cand M (p_med st) (p_data st) rl) (seq 0 (mlen M)) (lzero, None) ;;
         Ok (rl, best)) (fun p => length (fst p) = k /\ best_ok (p_med st) n (snd p)).
  Proof.
    intros hk hg hl. pose proof hg as [[i1 i2 i3] g4].
    assert (hl' : length (p_rl st) = length (p_med st)) by congruence.
    pose proof (update_removal_loss_ok HD (p_rl st) i2 i3 hl') as hu.
    apply oks_inv in hu as (rl & -> & hrl1 & hrl2). cbn [bind].
    rewrite (len_n (proj1 HD)).
    eapply oks_bind with (P := best_ok (p_med st) n).
    - apply foldM_seq with (I := best_ok (p_med st)).
      + left. cbn [fst snd]. split; [auto|]. split; [apply vL_zero|]. intros; lia.
      + intros j best hj hb. apply q_fastpam1_cand with (k := k); auto. congruence.
    - intros best hb. cbn [oks fst snd]. split; [congruence|auto].
  Qed.

  Lemma q_pam_best k st :
    q_good k st ->
    oks (foldM (pam_cand M (p_med st) (p_data st)) (seq 0 (mlen M)) (lzero, None))
        (best_ok (p_med st) n).
  Proof.
    intros hg. rewrite (len_n (proj1 HD)). apply foldM_seq with (I := best_ok (p_med st)).
    - left. cbn [fst snd]. split; [auto|]. split; [apply vL_zero|]. intros; lia.
    - intros j best hj hb. apply q_pam_cand with (k := k); auto.
  Qed.

  Lemma q_fastpam1_iteration k st :
    1 <= n -> 1 <= k -> q_good k st -> length (p_rl st) = k ->
    oks (fastpam1_iteration M st) (fun c =>
      length (p_rl (match c with Next s => s | Break s => s end)) = k /\ q_step k st c).
  Proof.
    intros hn hk hg hl. unfold fastpam1_iteration. fold (inc_iter st).
    pose proof (q_fastpam1_best hk (q_inc hg) hl) as h.
    apply oks_inv in h as ([rl best] & e & h1 & h2). cbn [fst snd] in *.
    apply bind_ok in e as (rl' & e1 & e). apply bind_ok in e as (best' & e2 & e).
    injection e as -> ->. rewrite e1. cbn [bind]. rewrite e2. cbn [bind].
    eapply oks_mono; [apply (q_swap_best rl hn (q_inc hg) h2)|].
    intros [s|s] (q1 & q2); (split; [congruence|]); exact q2.
  Qed.

  Lemma q_pam_iteration k st :
    1 <= n -> q_good k st -> oks (pam_iteration M st) (q_step k st).
  Proof.
    intros hn hg. unfold pam_iteration. fold (inc_iter st).
    eapply oks_bind; [apply (q_pam_best (q_inc hg))|]. intros best hb.
    eapply oks_mono; [apply (q_swap_best _ hn (q_inc hg) hb)|].
    intros [s|s] (q1 & q2); exact q2.
  Qed.

  Lemma q_iterations_same k st1 st2 :
    1 <= n -> 1 <= k -> q_good k st1 -> length (p_rl st1) = k -> same_but_rl st1 st2 ->
    match fastpam1_iteration M st1, pam_iteration M st2 with
    | Ok (Next s1), Ok (Next s2) => same_but_rl s1 s2 /\ q_good k s1 /\ length (p_rl s1) = k
    | Ok (Break s1), Ok (Break s2) => same_but_rl s1 s2
    | _, _ => False
    end.
  Proof.
    intros hn hk hg hl hs. pose proof hs as (h1 & h2 & h3 & h4 & h5).
    pose proof (q_fastpam1_iteration hn hk hg hl) as hok.
    unfold fastpam1_iteration in *. fold (inc_iter st1) in *.
    pose proof (q_fastpam1_best hk (q_inc hg) hl) as hb1.
    apply oks_inv in hb1 as ([rl best] & e & hr1 & hb1). cbn [fst snd] in *.
    apply bind_ok in e as (rl' & e1 & e). apply bind_ok in e as (best' & e2 & e).
    injection e as -> ->. rewrite e1 in *. cbn [bind] in *. rewrite e2 in *. cbn [bind] in *.
    unfold pam_iteration. fold (inc_iter st2). 
    pose proof (q_pam_best (q_inc hg)) as hb2.
    apply oks_inv in hb2 as (best2 & e3 & hb2).
    cbn [inc_iter p_med p_data p_loss p_swaps p_iter p_rl] in *.
    rewrite h1, h2 in e3. rewrite e3. cbn [bind].
    assert (hs' : same_but_rl (inc_iter st1) (inc_iter st2)).
    { unfold same_but_rl, inc_iter. cbn. auto 10. }
    pose proof (swap_best_same M rl (p_rl (inc_iter st2)) hs' hb1 hb2) as hsame.
    cbn [inc_iter p_rl] in hsame. fold (inc_iter st1) in *. fold (inc_iter st2) in *.
    destruct (swap_best M (inc_iter st1) rl best) as [[s1|s1]|]; [| |contradiction].
    - destruct (swap_best M (inc_iter st2) (p_rl st2) best2) as [[s2|s2]|]; try contradiction.
      cbn [oks] in hok. destruct hok as (q1 & q2 & _). auto.
    - destruct (swap_best M (inc_iter st2) (p_rl st2) best2) as [[s2|s2]|]; try contradiction. auto.
  Qed.

  Lemma q_runs_same k maxiter st1 st2 :
    1 <= n -> 1 <= k -> q_good k st1 -> length (p_rl st1) = k -> same_but_rl st1 st2 ->
    match whileM maxiter (fastpam1_iteration M) st1, whileM maxiter (pam_iteration M) st2 with
    | Ok s1, Ok s2 => same_but_rl s1 s2
    | _, _ => False
    end.
  Proof.
    intros hn hk. revert st1 st2. induction maxiter; intros st1 st2 hg hl hs; [exact hs|].
    cbn [whileM]. pose proof (q_iterations_same hn hk hg hl hs) as h.
    destruct (fastpam1_iteration M st1) as [[s1|s1]|]; [| |contradiction];
      destruct (pam_iteration M st2) as [[s2|s2]|]; try contradiction; cbn [bind]; auto.
    destruct h as (q1 & q2 & q3). apply IHmaxiter; auto.
  Qed.

  Record sq_summary (med : list nat) (maxiter : nat) (r : pam_result Lt) : Prop := {
    sq_run : run_r (seq 0 n) med maxiter r;
    sq_end : (r_iter r = S (r_swaps r) /\ swap_optimal v n (r_med r)) \/
             (r_iter r = r_swaps r /\ r_iter r = maxiter);
    sq_ref : (r_med r, r_swaps r, r_iter r) = best_swaps (dev_better v n) n med maxiter
  }.

  Lemma q_assi med data :
    inr n med -> data_ok n D med data ->
    length (assignment_of data) = n /\
    (forall o, o < n -> nearest v o med (nth o (assignment_of data) 0)).
  Proof.
    intros i2 [hl hd].
    assert (hn : forall o, o < n -> exists r, nth_error data o = Some r /\
               nth o (assignment_of data) 0 = as_usize (di (near r))).
    { intros o ho. destruct (nth_error_ex data (i := o)) as [r hr]; [lia|].
      exists r. split; auto. apply nth_error_nth. unfold assignment_of.
      rewrite nth_error_map, hr. auto. }
    split; [unfold assignment_of; rewrite map_length; auto|].
    - intros o ho. destruct (hn o ho) as (r & hr & ->).
      destruct (rec2_x HD (hd o r hr)) as (a & s & hx).
      destruct (rec_x_near hx) as [_ hnear].
      destruct hx as (_ & _ & _ & -> & _). auto.
  Qed.

  Lemma q_run k med maxiter body (good : pst Nt Lt -> Prop) (f : list nat -> nat) st0 :
    length med = k -> measure_r k f ->
    (forall st, good st -> q_good k st) ->
    (forall st, good st -> oks (body st) (fun c =>
        good (match c with Next s => s | Break s => s end) /\ q_step k st c)) ->
    good st0 -> p_med st0 = med -> p_swaps st0 = 0 -> p_iter st0 = 0 ->
    oks (whileM maxiter body st0) (fun st =>
      good st /\
      let r := mkPR (p_loss st) (assignment_of (p_data st)) (p_iter st) (p_swaps st) (p_med st) in
      sq_summary med maxiter r /\ r_swaps r + f (r_med r) <= f med).
  Proof.
    intros hk hf hgood hbody hg0 hm hs hi.
    eapply oks_mono.
    - apply steepest with (body := body) (swaps := @p_swaps Nt Lt) (iter := @p_iter Nt Lt)
        (obj := fun st => tdev v n (p_med st)) (good := good)
        (optimal := fun st => swap_optimal v n (p_med st))
        (mu := fun st => f (p_med st)) (core := @p_med Nt Lt) (bestf := dev_best); auto.
      intros st hg. eapply oks_mono; [apply hbody; auto|].
      intros [s|s] [h1 h2].
      + destruct h2 as (q1 & q2 & q3 & q4 & q5). split; [auto|]. split; [auto|]. split; [|auto].
        pose proof (hgood st hg) as [[i1 i2 i3] g4].
        destruct q1 as [[j1 j2 j3] l4]. apply hf; auto.
      + destruct h2 as (q1 & q2 & q3 & q4 & q5 & q6 & q7 & q8). rewrite q3. rewrite q3 in q2. auto 10.
    - intros st [h1 h2 h3 h4 h5 h6 h7 h8]. cbv zeta. split; [auto|].
      pose proof (hgood st h1) as [[i1 i2 i3] g4].
      destruct (q_assi i2 i3) as (a1 & a2).
      cbv beta in *. rewrite hm in *.
      split; [|cbn [r_swaps r_med]; exact h6].
      constructor; [constructor| |]; cbn [r_med r_assi r_loss r_swaps r_iter]; auto.
      + congruence.
      + lia.
      + intros hlt j hj b hb. apply in_seq in hj. destruct h7 as [[_ h7]|[_ h7]]; [|lia]. apply h7; [congruence|lia].
  Qed.

  Lemma fastpam1_repeats med maxiter f :
    sizes n (length med) -> inr n med -> 2 <= length med ->
    measure_r (length med) f ->
    oks (fastpam1 M med maxiter) (fun r => sq_summary med maxiter r /\ r_swaps r + f (r_med r) <= f med).
  Proof.
    intros hs hin hk hf. assert (hn : 1 <= n) by (destruct hs; lia).
    unfold fastpam1.
    replace (length med =? 1) with false by (symmetry; apply Nat.eqb_neq; lia).
    pose proof (proj1 HD) as HM. destruct (emb_vals HD) as [he hdg].
    pose proof (initial_assignment_ok (Lt := Lt) HM hs hin hk) as h.
    apply oks_inv in h as ([loss data] & -> & hd & hsum & hown). cbn [bind fst snd] in *.
    eapply oks_bind.
    - apply q_run with (med := med) (k := length med) (f := f)
        (good := fun st => q_good (length med) st /\ length (p_rl st) = length med); auto.
      + intros st [h _]. auto.
      + intros st [h1 h2]. eapply oks_mono; [apply (q_fastpam1_iteration hn) with (2 := h1); auto; lia|].
        intros [s|s] [q1 q2]; (split; [|exact q2]); split; auto; apply q2.
      + cbn. split; [|apply repeat_length]. constructor; cbn; auto.
        * constructor; auto.
        * eapply near_sum_tdev; eauto.
    - intros st [_ h]. exact h.
  Qed.

  Lemma pam_optimize_repeats med data maxiter loss f :
    1 <= n -> inr n med -> 2 <= length med ->
    data_ok n D med data -> (vL loss == tdev v n med)%Q ->
    measure_r (length med) f ->
    oks (pam_optimize M med data maxiter loss) (fun r =>
      sq_summary med maxiter r /\ r_swaps r + f (r_med r) <= f med).
  Proof.
    intros hn hin hk hd hloss hf. unfold pam_optimize.
    replace (length med =? 1) with false by (symmetry; apply Nat.eqb_neq; lia).
    eapply oks_bind.
    - apply q_run with (med := med) (k := length med) (f := f)
        (good := q_good (length med)); auto.
      + intros st h1. eapply oks_mono; [apply (q_pam_iteration hn h1)|].
        intros [s|s] q; (split; [|exact q]); apply q.
      + constructor; cbn; auto. constructor; auto.
    - intros st [_ h]. exact h.
  Qed.

  Lemma pam_swap_repeats med maxiter f :
    sizes n (length med) -> inr n med -> 2 <= length med ->
    measure_r (length med) f ->
    oks (pam_swap M med maxiter) (fun r => sq_summary med maxiter r /\ r_swaps r + f (r_med r) <= f med).
  Proof.
    intros hs hin hk hf. assert (hn : 1 <= n) by (destruct hs; lia).
    pose proof (proj1 HD) as HM. destruct (emb_vals HD) as [he hdg].
    unfold pam_swap.
    pose proof (initial_assignment_ok (Lt := Lt) HM hs hin hk) as h.
    apply oks_inv in h as ([loss data] & -> & hd & hsum & hown). cbn [bind fst snd] in *.
    apply pam_optimize_repeats; auto.
    - eapply near_sum_tdev; eauto.
  Qed.

  Lemma fastpam1_pam_repeats med maxiter :
    sizes n (length med) -> inr n med -> 2 <= length med ->
    exists r, fastpam1 (Lt := Lt) M med maxiter = Ok r /\ pam_swap M med maxiter = Ok r.
  Proof.
    intros hs hin hk. assert (hn : 1 <= n) by (destruct hs; lia).
    pose proof (proj1 HD) as HM. destruct (emb_vals HD) as [he hdg].
    unfold fastpam1, pam_swap, pam_optimize.
    replace (length med =? 1) with false by (symmetry; apply Nat.eqb_neq; lia).
    pose proof (initial_assignment_ok (Lt := Lt) HM hs hin hk) as h.
    apply oks_inv in h as ([loss data] & -> & hd & hsum & hown). cbn [bind fst snd] in *.
    assert (hg0 : forall rl, q_good (length med) (mkP med data rl loss 0 0)).
    { intros rl. constructor; cbn; auto.
      - constructor; auto.
        - eapply near_sum_tdev; eauto. }
    pose proof (q_runs_same (k := length med) maxiter
      (st1 := mkP med data (repeat lzero (length med)) loss 0 0)
      (st2 := mkP med data [] loss 0 0) hn ltac:(lia) (hg0 _) (repeat_length _ _)) as h.
    assert (hsame : same_but_rl (mkP med data (repeat lzero (length med)) loss 0 0)
                                (mkP med data [] loss 0 0)) by (unfold same_but_rl; auto 10).
    specialize (h hsame).
    destruct (whileM maxiter (fastpam1_iteration M) _) as [s1|]; [|contradiction].
    destruct (whileM maxiter (pam_iteration M) _) as [s2|]; [|contradiction].
    destruct h as (q1 & q2 & q3 & q4 & q5). cbn [bind]. eexists. split; [reflexivity|].
    rewrite q1, q2, q3, q4, q5. auto.
  Qed.

End Repeats.
