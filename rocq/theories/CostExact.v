(** CostExact.v -- lower and upper bounds on the entries read by the algorithms which evaluate every candidate
    before they swap: fastpam1, pam_swap, fastmsc and pammedsil_swap. *)
From Coq Require Import ZArith QArith Lqa Lia.
From Verif Require Import Base Num M_Mat M_Util M_Fasterpam M_Pam M_Silhouette M_Msc M_Pammedsil M_Cost Hoare
  Spec SpecFacts Laws PamShape PamExact PamFacts SilFacts MscShape MscExact MscFacts MscK2 FloatMain FloatPam MscAny CostFacts CostBounds.
Set Implicit Arguments.
Open Scope nat_scope.

Section Exact.
  Context {Nt Lt : Type} `{HO : OrdLaws Nt} `{HNL : NumL Lt} `{HFN : FromN Nt Lt}.
  Variable M : Mat Nt.
  Variable n : nat.
  Variable D : nat -> nat -> Nt.
  Hypothesis HD : diss_matrix M n D.
  (** the only law of the losses: [0 < 0] is false *)
  Hypothesis zz : lltb (lzero : Lt) lzero = false.
  Let HM : is_matrix M n D := proj1 HD.

  (** *** fastpam1.rs and pam.rs *)
  Lemma swap_best_rl (st : pst Nt Lt) rl best c : swap_best M st rl best = Ok c -> p_rl (state c) = rl.
  Proof.
    unfold swap_best. destruct (lltb (fst best) lzero).
    - destruct (snd best) as [[b j]|]; [|discriminate].
      destruct (do_swap M (p_med st) (p_data st) b j) as [[[med' data'] l']|]; [|discriminate]. cbn [bind].
      destruct (lleb (p_loss st) l'); intros e; injection e as <-; auto.
    - intros e. injection e as <-. auto.
  Qed.

  Lemma pf_knows k (st : pst Nt Lt) : pf_inv n D k st -> knows M (p_med st) (p_data st) /\ p_len M k st.
  Proof.
    intros [[i1 i2 i3] hnd hown]. unfold knows, p_len. rewrite (len_n HM).
    split; [split; [auto|split]|split; [auto|apply i3]].
    - intros m hm. exact (i2 m hm).
    - intros j r mj hr hm hin. apply nth_In_iff in hin as (c & hc1 & hc2).
      rewrite (hown j r hr c hc1 hc2) in hm. cbn [as_usize] in hm. rewrite <- hc2.
      apply nth_error_nth with (d := 0) in hm. congruence.
  Qed.

  Lemma fastpam1_iteration_pf k (st : pst Nt Lt) : 1 <= n -> 1 <= k -> pf_inv n D k st -> length (p_rl st) = k ->
    oks (fastpam1_iteration M st) (fun c => pf_inv n D k (state c) /\ length (p_rl (state c)) = k).
  Proof.
    intros hn hk hi hl. unfold fastpam1_iteration. cbn [p_med p_data p_rl p_loss p_swaps p_iter].
    set (st1 := mkP (p_med st) (p_data st) (p_rl st) (p_loss st) (p_swaps st) (S (p_iter st))).
    pose proof hi as [[i1 i2 i3] hnd hown].
    assert (hi1 : pf_inv n D k st1) by (constructor; auto; constructor; auto).
    assert (hu : oks (update_removal_loss (p_data st) (p_rl st)) (fun rl => length rl = length (p_med st))).
    { apply update_removal_loss_len with (n := n) (D := D); auto. congruence. }
    apply oks_inv in hu as (rl & -> & hrl). cbn [bind].
    eapply oks_bind with (P := best_new n st1).
    - apply foldM_inv; [reflexivity|]. intros j best hj hb. apply in_seq in hj.
      rewrite (len_n HM) in hj. apply (fastpam1_cand_new HD) with (k := k) (st := st1); auto; lia.
    - intros best hb. assert (h := swap_best_pf HD zz (k := k) (st := st1) rl best hn hi1 hb).
      apply oks_inv in h as (c & e & h). rewrite e. cbn [oks]. rewrite (swap_best_rl _ _ _ e).
      split; [destruct c; exact h|congruence].
  Qed.

  Lemma pam_iteration_pf k (st : pst Nt Lt) : 1 <= n -> pf_inv n D k st ->
    oks (pam_iteration M st) (fun c => pf_inv n D k (state c)).
  Proof.
    intros hn hi. unfold pam_iteration. cbn [p_med p_data p_rl p_loss p_swaps p_iter].
    set (st1 := mkP (p_med st) (p_data st) (p_rl st) (p_loss st) (p_swaps st) (S (p_iter st))).
    pose proof hi as [[i1 i2 i3] hnd hown].
    assert (hi1 : pf_inv n D k st1) by (constructor; auto; constructor; auto).
    eapply oks_bind with (P := best_new n st1).
    - apply foldM_inv; [reflexivity|]. intros j best hj hb. apply in_seq in hj.
      rewrite (len_n HM) in hj. apply (pam_cand_new HD) with (k := k) (st := st1); auto; lia.
    - intros best hb. eapply oks_mono; [apply (swap_best_pf HD zz (k := k) (st := st1) (p_rl st) best hn hi1 hb)|]. intros [s|s] h; exact h.
  Qed.

  Lemma initial_pf med : sizes n (length med) -> medoids n (length med) med -> 2 <= length med ->
    oks (initial_assignment (Lt := Lt) M med) (fun p => forall rl s i,
      pf_inv n D (length med) (mkP med (snd p) rl (fst p) s i)).
  Proof.
    intros hs (_ & hnd & hin) hk. destruct (emb_vals HD) as [he hg].
    eapply oks_mono; [apply (initial_assignment_ok (Lt := Lt) HM hs hin hk)|].
    intros [loss data] (hd & hsum & hown) rl s i. cbn [fst snd] in *.
    constructor; cbn [p_med p_data]; eauto. constructor; auto.
  Qed.

  (** what the swap phase reads: [w] entries for each candidate of each iteration, and at most [k] of each object
      for each swap *)
  Definition phase (w k c : nat) (r : pam_result Lt) : Prop :=
    n * k + w * (n - k) * r_iter r <= c /\ c <= n * k * (1 + r_swaps r) + w * (n - k) * r_iter r.

  Lemma fastpam1_cost med maxiter : sizes n (length med) -> medoids n (length med) med -> 2 <= length med ->
    cok (fastpam1_n M med maxiter) (phase n (length med)).
  Proof.
    intros hs hm hk. assert (hn : 1 <= n) by (destruct hs; lia). assert (hk1 : 1 <= length med) by lia.
    unfold fastpam1_n. destruct (Nat.eqb_spec (length med) 1) as [|_]; [lia|].
    eapply cok_bind.
    - eapply cok_with; [apply initial_assignment_same|apply (initial_pf hs hm hk)|apply initial_cost].
    - intros c [loss data] (hpf & -> & hd & _). cbn [fst snd] in *. rewrite (len_n HM).
      eapply cok_bind.
      + apply cok_while with (I := fun s => pf_inv n D (length med) s /\ length (p_rl s) = length med)
          (lo := lo_p M n (length med)) (up := up_p M n (length med)).
        * split; [apply hpf|apply repeat_length].
        * intros st [hi hl]. destruct (pf_knows hi) as [h1 h2].
          eapply cok_mono.
          -- eapply cok_with; [apply fastpam1_iteration_same|apply (fastpam1_iteration_pf hn hk1 hi hl)|].
             apply fastpam1_iteration_cost; eauto.
          -- cbv beta. rewrite (len_n HM). intros c x [hp [_ hw]]. auto.
      + intros c st [_ [h1 h2]]. unfold lo_p, up_p in h1, h2. rewrite (len_n HM) in h1, h2.
        cbn [p_swaps p_iter] in h1, h2. apply cok_ret. unfold phase. cbn [r_swaps r_iter]. nia.
  Qed.

  Lemma pam_swap_cost med maxiter : sizes n (length med) -> medoids n (length med) med -> 2 <= length med ->
    cok (pam_swap_n M med maxiter) (phase (length med * (n - 1)) (length med)).
  Proof.
    intros hs hm hk. assert (hn : 1 <= n) by (destruct hs; lia).
    unfold pam_swap_n. eapply cok_bind.
    - eapply cok_with; [apply initial_assignment_same|apply (initial_pf hs hm hk)|apply initial_cost].
    - intros c [loss data] (hpf & -> & hd & _). cbn [fst snd] in *. rewrite (len_n HM).
      unfold pam_optimize_n. destruct (Nat.eqb_spec (length med) 1) as [|_]; [lia|].
      eapply cok_bind.
      + apply cok_while with (I := pf_inv n D (length med))
          (lo := lo_p M (length med * (n - 1)) (length med)) (up := up_p M (length med * (n - 1)) (length med)).
        * apply hpf.
        * intros st hi. destruct (pf_knows hi) as [h1 h2].
          eapply cok_mono.
          -- eapply cok_with; [apply pam_iteration_same|apply (pam_iteration_pf hn hi)|].
             apply pam_iteration_cost; eauto.
          -- cbv beta. rewrite (len_n HM). intros c x [hp [_ hw]]. auto.
      + intros c st [_ [h1 h2]]. unfold lo_p, up_p in h1, h2. rewrite (len_n HM) in h1, h2.
        cbn [p_swaps p_iter] in h1, h2. apply cok_ret. unfold phase. cbn [r_swaps r_iter].
        set (w := length med * (n - 1)) in *. clearbody w. nia.
  Qed.

  (** *** fastmsc.rs and pammedsil.rs *)
  Lemma own_knows k (st : mst Nt Lt) : own_inv n D k st -> knows3 M (m_med st) (m_data st) /\ m_len M k st.
  Proof.
    intros [[i1 i2 i3] hnd hown]. unfold knows3, m_len. rewrite (len_n HM).
    split; [split; [auto|split]|split; [auto|apply i3]].
    - intros m hm. exact (i2 m hm).
    - intros j r mj hr hm hin. apply nth_In_iff in hin as (c & hc1 & hc2).
      rewrite (hown j r hr c hc1 hc2) in hm. cbn [as_usize] in hm. rewrite <- hc2.
      apply nth_error_nth with (d := 0) in hm. congruence.
  Qed.

  Lemma fastmsc_cost med maxiter : sizes n (length med) -> medoids n (length med) med -> 3 <= length med ->
    cok (fastmsc_n M med maxiter) (phase n (length med)).
  Proof.
    intros hs hm hk. assert (hn : 1 <= n) by (destruct hs; lia). assert (hk2 : 2 <= length med) by lia.
    unfold fastmsc_n. destruct (Nat.eqb_spec (length med) 1) as [|_]; [lia|].
    destruct (Nat.eqb_spec (length med) 2) as [|_]; [lia|].
    eapply cok_bind.
    - eapply cok_with; [apply initial_assignment3_same|apply (initial3_own HD hs hm hk2)|apply initial3_cost].
    - intros c [loss data] (hpf & -> & hd & _). cbn [fst snd] in *. rewrite (len_n HM).
      eapply cok_bind.
      + apply cok_while with (I := fun s => own_inv n D (length med) s /\ length (m_rl s) = length med)
          (lo := lo_m M n (length med)) (up := up_m M n (length med)).
        * split; [apply hpf|apply repeat_length].
        * intros st [hi hl]. destruct (own_knows hi) as [h1 h2].
          eapply cok_mono.
          -- eapply cok_with; [apply fastmsc_iteration_same|apply (fastmsc_iteration_own HD zz hn hk2 hi hl)|].
             apply fastmsc_iteration_cost; eauto.
          -- cbv beta zeta. rewrite (len_n HM). intros c x [hp [_ hw]]. auto.
      + intros c st [_ [h1 h2]]. unfold lo_m, up_m in h1, h2. rewrite (len_n HM) in h1, h2.
        cbn [m_swaps m_iter] in h1, h2. apply cok_ret. unfold phase. cbn [r_swaps r_iter]. nia.
  Qed.

  Lemma pammedsil_swap_cost med maxiter : sizes n (length med) -> medoids n (length med) med -> 2 <= length med ->
    cok (pammedsil_swap_n M med maxiter) (phase (length med * (n - 1)) (length med)).
  Proof.
    intros hs hm hk. assert (hn : 1 <= n) by (destruct hs; lia).
    unfold pammedsil_swap_n. eapply cok_bind.
    - eapply cok_with; [apply initial_assignment3_same|apply (initial3_own HD hs hm hk)|apply initial3_cost].
    - intros c [loss data] (hpf & -> & hd & _). cbn [fst snd] in *. rewrite (len_n HM).
      unfold pammedsil_optimize_n. destruct (Nat.eqb_spec (length med) 1) as [|_]; [lia|].
      eapply cok_bind.
      + apply cok_while with (I := own_inv n D (length med))
          (lo := lo_m M (length med * (n - 1)) (length med)) (up := up_m M (length med * (n - 1)) (length med)).
        * apply hpf.
        * intros st hi. destruct (own_knows hi) as [h1 h2].
          eapply cok_mono.
          -- eapply cok_with; [apply pms_iteration_same|apply (pms_iteration_own HD zz hn hk hi)|].
             apply pms_iteration_cost; eauto.
          -- cbv beta zeta. rewrite (len_n HM). intros c x [hp [_ hw]]. auto.
      + intros c st [_ [h1 h2]]. unfold lo_m, up_m in h1, h2. rewrite (len_n HM) in h1, h2.
        cbn [m_swaps m_iter] in h1, h2. apply cok_ret. unfold phase. cbn [r_swaps r_iter].
        set (w := length med * (n - 1)) in *. clearbody w. nia.
  Qed.
End Exact.

(** ** fastpam1 and pam_swap, fastmsc and pammedsil_swap make the same moves: the exact difference *)
Lemma fst_cbind A B (m : cres A) (f : A -> cres B) a : snd m = Ok a -> fst (cbind m f) = fst m + fst (f a).
Proof. intros e. unfold cbind. rewrite e. auto. Qed.

Section Search.
  Context {Nt Lt : Type} `{HO : OrdLaws Nt} `{HNL : NumL Lt} `{HFN : FromN Nt Lt}.
  Variable M : Mat Nt.
  Local Notation n := (mlen M).

  Lemma fastpam1_search k med data (rl : list Lt) b0 : length med = k -> length data = n -> knows M med data ->
    cok (cfoldM (fastpam1_cand_n M med data rl) (seq 0 n) b0) (fun c _ => c = n * (n - k)).
  Proof.
    intros h1 h2 hk. eapply cok_mono.
    - apply cok_fold with (I := fun _ => True) (w := fun j => if in_dec Nat.eq_dec j med then 0 else n); auto.
      intros j s _ _. eapply cok_mono; [apply fastpam1_cand_cost|]. intros c a h. split; [|auto].
      rewrite h2 in h. apply knows_cost with (1 := hk) (2 := h).
    - cbv beta. intros c a [-> _]. rewrite sum_out with (k := k); [lia|auto|apply hk|apply hk].
  Qed.

  Lemma pam_search k med data (b0 : best_swap (Lt := Lt)) : length med = k -> length data = n -> knows M med data ->
    cok (cfoldM (pam_cand_n M med data) (seq 0 n) b0) (fun c _ => c = k * (n - 1) * (n - k)).
  Proof.
    intros h1 h2 hk. eapply cok_mono.
    - apply cok_fold with (I := fun _ => True) (w := fun j => if in_dec Nat.eq_dec j med then 0 else k * (n - 1)); auto.
      intros j s _ _. eapply cok_mono; [apply pam_cand_cost|]. intros c a h. split; [|auto].
      rewrite h1, h2 in h. apply knows_cost with (1 := hk) (2 := h).
    - cbv beta. intros c a [-> _]. rewrite sum_out with (k := k); [lia|auto|apply hk|apply hk].
  Qed.

  Lemma fastmsc_search k med data (rl : list Lt) b0 : length med = k -> length data = n -> knows3 M med data ->
    cok (cfoldM (fastmsc_cand_n M med data rl) (seq 0 n) b0) (fun c _ => c = n * (n - k)).
  Proof.
    intros h1 h2 hk. eapply cok_mono.
    - apply cok_fold with (I := fun _ => True) (w := fun j => if in_dec Nat.eq_dec j med then 0 else n); auto.
      intros j s _ _. eapply cok_mono; [apply fastmsc_cand_cost|]. intros c a h. split; [|auto].
      rewrite h2 in h. apply knows3_cost with (1 := hk) (2 := h).
    - cbv beta. intros c a [-> _]. rewrite sum_out with (k := k); [lia|auto|apply hk|apply hk].
  Qed.

  Lemma pms_search k med data (b0 : Lt * option (nat * nat)) : length med = k -> length data = n -> knows3 M med data ->
    cok (cfoldM (pms_cand_n M med data) (seq 0 n) b0) (fun c _ => c = k * (n - 1) * (n - k)).
  Proof.
    intros h1 h2 hk. eapply cok_mono.
    - apply cok_fold with (I := fun _ => True) (w := fun j => if in_dec Nat.eq_dec j med then 0 else k * (n - 1)); auto.
      intros j s _ _. eapply cok_mono; [apply pms_cand_cost|]. intros c a h. split; [|auto].
      rewrite h1, h2 in h. apply knows3_cost with (1 := hk) (2 := h).
    - cbv beta. intros c a [-> _]. rewrite sum_out with (k := k); [lia|auto|apply hk|apply hk].
  Qed.
End Search.

Section Same.
  Context {Nt Lt : Type} `{HLL : LossLaws Nt Lt}.
  Variable M : Mat Nt.
  Variable n : nat.
  Variable D : nat -> nat -> Nt.
  Hypothesis HD : diss_matrix M n D.
  Let HM : is_matrix M n D := proj1 HD.

  Lemma swap_best_iter (st : pst Nt Lt) rl best c : swap_best M st rl best = Ok c -> p_iter (state c) = p_iter st.
  Proof.
    unfold swap_best. destruct (lltb (fst best) lzero).
    - destruct (snd best) as [[b j]|]; [|discriminate].
      destruct (do_swap M (p_med st) (p_data st) b j) as [[[med' data'] l']|]; [|discriminate]. cbn [bind].
      destruct (lleb (p_loss st) l'); intros e; injection e as <-; auto.
    - intros e. injection e as <-. auto.
  Qed.

  Lemma swap_best_reads (st1 st2 : pst Nt Lt) rl1 rl2 b1 b2 med : same_but_rl st1 st2 ->
    best_ok n D med n b1 -> best_ok n D med n b2 ->
    fst (swap_best_n M st1 rl1 b1) = fst (swap_best_n M st2 rl2 b2).
  Proof.
    intros (h1 & h2 & h3 & h4 & h5) hb1 hb2. destruct (best_ok_unique hb1 hb2) as [e1 e2]. unfold swap_best_n.
    assert (e3 : lltb (fst b1) lzero = lltb (fst b2) lzero).
    { destruct (lltb (fst b1) lzero) eqn:x1; destruct (lltb (fst b2) lzero) eqn:x2; auto.
      - apply lltb_spec in x1. rewrite e2 in x1. apply lltb_spec in x1. congruence.
      - apply lltb_spec in x2. rewrite <- e2 in x2. apply lltb_spec in x2. congruence. }
    rewrite e1, e3, h1, h2, h3. destruct (lltb (fst b2) lzero); [|auto].
    destruct (snd b2) as [[b j]|]; [|auto]. unfold cbind.
    destruct (snd (do_swap_n M (p_med st2) (p_data st2) b j)) as [[[m' d'] l']|p]; [|auto].
    destruct (lleb (p_loss st2) l'); auto.
  Qed.

  Lemma good_pf k (st : pst Nt Lt) : p_good n D k st -> pf_inv n D k st.
  Proof. intros [? ? ? ?]. constructor; auto. Qed.

  Lemma iterations_reads k (st1 st2 : pst Nt Lt) :
    1 <= n -> 1 <= k -> p_good n D k st1 -> length (p_rl st1) = k -> same_but_rl st1 st2 ->
    fst (fastpam1_iteration_n M st1) + k * (n - 1) * (n - k) = fst (pam_iteration_n M st2) + n * (n - k) /\
    forall c, fastpam1_iteration M st1 = Ok c -> p_iter (state c) = S (p_iter st1).
  Proof.
    intros hn hk hg hl hs. pose proof hs as (h1 & h2 & h3 & h4 & h5).
    destruct (pf_knows HD (good_pf hg)) as [hkn [hl1 hl2]].
    unfold fastpam1_iteration, fastpam1_iteration_n. fold (inc_iter st1).
    pose proof (fastpam1_best_ok HD hk (inc_good hg) hl) as hb1.
    apply oks_inv in hb1 as ([rl best] & e & hr1 & hb1). cbn [fst snd] in *.
    apply bind_ok in e as (rl' & e1 & e). apply bind_ok in e as (best' & e2 & e). injection e as -> ->.
    unfold pam_iteration_n. fold (inc_iter st2).
    pose proof (pam_best_ok HD (inc_good hg)) as hb2.
    apply oks_inv in hb2 as (best2 & e3 & hb2).
    cbn [inc_iter p_med p_data p_loss p_swaps p_iter p_rl] in *. fold (inc_iter st1) in *. fold (inc_iter st2) in *.
    assert (hs' : same_but_rl (inc_iter st1) (inc_iter st2)) by (unfold same_but_rl, inc_iter; cbn; auto 10).
    split.
    - assert (f2 : snd (cfoldM (fastpam1_cand_n M (p_med st1) (p_data st1) rl) (seq 0 (mlen M)) (lzero, None)) = Ok best).
      { rewrite <- e2. apply snd_cfoldM. intros s j. apply fastpam1_cand_same. }
      assert (f3 : snd (cfoldM (pam_cand_n M (p_med st2) (p_data st2)) (seq 0 (mlen M)) (lzero, None)) = Ok best2).
      { rewrite <- e3, h1, h2. apply snd_cfoldM. intros s j. apply pam_cand_same. }
      rewrite (fst_cbind (lift (update_removal_loss (p_data st1) (p_rl st1))) _ e1).
      rewrite (fst_cbind _ _ f2), (fst_cbind _ _ f3).
      pose proof (fastpam1_search rl (lzero, None) hl1 hl2 hkn f2) as c1; cbv beta in c1.
      rewrite h1, h2 in hkn. rewrite h1 in hl1. rewrite h2 in hl2.
      pose proof (pam_search (lzero, None) hl1 hl2 hkn f3) as c2; cbv beta in c2.
      rewrite (swap_best_reads rl (p_rl st2) hs' hb1 hb2). cbn [lift fst].
      rewrite (len_n HM) in *. lia.
    - intros c. rewrite e1. cbn [bind]. rewrite e2. cbn [bind]. intros e. rewrite (swap_best_iter _ _ _ e). auto.
  Qed.

  Lemma runs_reads k maxiter (st1 st2 : pst Nt Lt) :
    1 <= n -> 1 <= k -> p_good n D k st1 -> length (p_rl st1) = k -> same_but_rl st1 st2 ->
    forall s, whileM maxiter (fastpam1_iteration M) st1 = Ok s ->
    fst (cwhileM maxiter (fastpam1_iteration_n M) st1) + k * (n - 1) * (n - k) * p_iter s + n * (n - k) * p_iter st1 =
    fst (cwhileM maxiter (pam_iteration_n M) st2) + n * (n - k) * p_iter s + k * (n - 1) * (n - k) * p_iter st1.
  Proof.
    intros hn hk. set (w := k * (n - 1) * (n - k)). set (u := n * (n - k)). revert st1 st2.
    induction maxiter; intros st1 st2 hg hl hs s; cbn [whileM cwhileM].
    - intros e. injection e as <-. cbn. lia.
    - pose proof (iterations_same HD hn hk hg hl hs) as h.
      destruct (iterations_reads hn hk hg hl hs) as [hc hit]. fold w u in hc.
      pose proof (fastpam1_iteration_same M st1) as q1. pose proof (pam_iteration_same M st2) as q2.
      destruct (fastpam1_iteration M st1) as [[s1|s1]|]; [| |contradiction];
        destruct (pam_iteration M st2) as [[s2|s2]|]; try contradiction; cbn [bind].
      + specialize (hit _ eq_refl). cbn [state] in hit.
        destruct h as (g1 & g2 & g3). intros e. rewrite (fst_cbind _ _ q1), (fst_cbind _ _ q2).
        pose proof (IHmaxiter s1 s2 g2 g3 g1 s e) as ih. rewrite hit in ih. nia.
      + specialize (hit _ eq_refl). cbn [state] in hit.
        intros e. injection e as <-. rewrite (fst_cbind _ _ q1), (fst_cbind _ _ q2). cbn [cret fst]. rewrite hit. nia.
  Qed.

  Lemma pam_reads_more med maxiter r : sizes n (length med) -> medoids n (length med) med -> 2 <= length med ->
    fastpam1 (Lt := Lt) M med maxiter = Ok r ->
    fst (fastpam1_n (Lt := Lt) M med maxiter) + length med * (n - 1) * (n - length med) * r_iter r =
    fst (pam_swap_n (Lt := Lt) M med maxiter) + n * (n - length med) * r_iter r.
  Proof.
    intros hs (hl & hnd & hin) hk e. assert (hn : 1 <= n) by (destruct hs; lia).
    destruct (emb_vals HD) as [he hdg].
    unfold fastpam1, fastpam1_n, pam_swap_n, pam_optimize_n in *.
    replace (length med =? 1) with false in * by (symmetry; apply Nat.eqb_neq; lia).
    pose proof (initial_assignment_ok (Lt := Lt) HM hs hin hk) as h.
    apply oks_inv in h as ([loss data] & ei & hd & hsum & hown). rewrite ei in e. cbn [bind fst snd] in *.
    assert (hg0 : forall rl, p_good n D (length med) (mkP med data rl loss 0 0)).
    { intros rl. constructor; cbn; auto.
      - constructor; auto.
      - eauto.
      - eapply near_sum_tdev; eauto. }
    assert (hsame : same_but_rl (mkP med data (repeat lzero (length med)) loss 0 0)
                                (mkP med data [] loss 0 0)) by (unfold same_but_rl; auto 10).
    assert (hk1 : 1 <= length med) by lia.
    apply bind_ok in e as (s & es & e). injection e as <-.
    pose proof (runs_reads maxiter hn hk1 (hg0 _) (repeat_length _ _) hsame es) as h.
    pose proof (runs_same HD maxiter hn hk1 (hg0 _) (repeat_length _ _) hsame) as h'. rewrite es in h'.
    destruct (whileM maxiter (pam_iteration M) _) as [s2|] eqn:es2; [|contradiction].
    assert (ei' : snd (initial_assignment_n (Lt := Lt) M med) = Ok (loss, data)) by (rewrite initial_assignment_same; auto).
    rewrite !(fst_cbind _ _ ei').
    assert (f1 : snd (cwhileM maxiter (fastpam1_iteration_n M) (mkP med data (repeat lzero (length med)) loss 0 0)) = Ok s).
    { rewrite <- es. apply snd_cwhileM. intros x. apply fastpam1_iteration_same. }
    assert (f2 : snd (cwhileM maxiter (pam_iteration_n M) (mkP med data [] loss 0 0)) = Ok s2).
    { rewrite <- es2. apply snd_cwhileM. intros x. apply pam_iteration_same. }
    rewrite (fst_cbind _ _ f1), (fst_cbind _ _ f2). cbn [r_iter cret fst p_iter] in *. lia.
  Qed.
End Same.

Section Same3.
  Context {Nt Lt : Type} `{HLL : LossLaws Nt Lt} `{HAL : !AddLaws Nt} `{HDL : !DivLaws Nt Lt}.
  Variable M : Mat Nt.
  Variable n : nat.
  Variable D : nat -> nat -> Nt.
  Hypothesis HD : diss_matrix M n D.
  Let HM : is_matrix M n D := proj1 HD.

  Lemma swap_best3_iter (st : mst Nt Lt) rl best c : swap_best3 M st rl best = Ok c -> m_iter (state c) = m_iter st.
  Proof.
    unfold swap_best3. destruct (lltb lzero (fst best)).
    - destruct (snd best) as [[b j]|]; [|discriminate].
      destruct (do_swap3 M (m_med st) (m_data st) b j) as [[[med' data'] l']|]; [|discriminate]. cbn [bind].
      destruct (lleb (m_loss st) l'); intros e; injection e as <-; auto.
    - intros e. injection e as <-. auto.
  Qed.

  Lemma swap_best3_reads (st1 st2 : mst Nt Lt) rl1 rl2 b1 b2 med : same3 st1 st2 ->
    best3 n D med n b1 -> best3 n D med n b2 ->
    fst (swap_best3_n M st1 rl1 b1) = fst (swap_best3_n M st2 rl2 b2).
  Proof.
    intros (h1 & h2 & h3 & h4 & h5) hb1 hb2. destruct (gbest_unique hb1 hb2) as [e1 e2]. unfold swap_best3_n.
    assert (e3 : lltb lzero (fst b1) = lltb lzero (fst b2)).
    { destruct (lltb lzero (fst b1)) eqn:x1; destruct (lltb lzero (fst b2)) eqn:x2; auto.
      - apply lltb_spec in x1. rewrite e2 in x1. apply lltb_spec in x1. congruence.
      - apply lltb_spec in x2. rewrite <- e2 in x2. apply lltb_spec in x2. congruence. }
    rewrite e1, e3, h1, h2, h3. destruct (lltb lzero (fst b2)); [|auto].
    destruct (snd b2) as [[b j]|]; [|auto]. unfold cbind.
    destruct (snd (do_swap3_n M (m_med st2) (m_data st2) b j)) as [[[m' d'] l']|p]; [|auto].
    destruct (lleb (m_loss st2) l'); auto.
  Qed.

  Lemma good3_own k (st : mst Nt Lt) : q_good n D k st -> own_inv n D k st.
  Proof. intros [? ? ? ?]. constructor; auto. Qed.

  Lemma iterations3_reads k (st1 st2 : mst Nt Lt) :
    1 <= n -> 3 <= k -> q_good n D k st1 -> length (m_rl st1) = k -> same3 st1 st2 ->
    fst (fastmsc_iteration_n M st1) + k * (n - 1) * (n - k) = fst (pms_iteration_n M st2) + n * (n - k) /\
    forall c, fastmsc_iteration M st1 = Ok c -> m_iter (state c) = S (m_iter st1).
  Proof.
    intros hn hk hg hl hs. pose proof hs as (h1 & h2 & h3 & h4 & h5).
    destruct (own_knows HD (good3_own hg)) as [hkn [hl1 hl2]].
    unfold fastmsc_iteration, fastmsc_iteration_n. fold (inc3 st1).
    pose proof (fastmsc_best_ok HD hk (inc3_good hg) hl) as hb1.
    apply oks_inv in hb1 as ([rl best] & e & hr1 & hb1). cbn [fst snd] in *.
    apply bind_ok in e as (rl' & e1 & e). apply bind_ok in e as (best' & e2 & e). injection e as -> ->.
    unfold pms_iteration_n. fold (inc3 st2).
    assert (hk2 : 2 <= k) by lia.
    pose proof (pms_best_ok HD hk2 (inc3_good hg)) as hb2.
    apply oks_inv in hb2 as (best2 & e3 & hb2).
    cbn [inc3 m_med m_data m_loss m_swaps m_iter m_rl] in *. fold (inc3 st1) in *. fold (inc3 st2) in *.
    assert (hs' : same3 (inc3 st1) (inc3 st2)) by (unfold same3, inc3; cbn; auto 10).
    split.
    - assert (f2 : snd (cfoldM (fastmsc_cand_n M (m_med st1) (m_data st1) rl) (seq 0 (mlen M)) (lzero, None)) = Ok best).
      { rewrite <- e2. apply snd_cfoldM. intros s j. apply fastmsc_cand_same. }
      assert (f3 : snd (cfoldM (pms_cand_n M (m_med st2) (m_data st2)) (seq 0 (mlen M)) (lzero, None)) = Ok best2).
      { rewrite <- e3, h1, h2. apply snd_cfoldM. intros s j. apply pms_cand_same. }
      rewrite (fst_cbind (lift (update_removal_loss3 (m_data st1) (m_rl st1))) _ e1).
      rewrite (fst_cbind _ _ f2), (fst_cbind _ _ f3).
      pose proof (fastmsc_search rl (lzero, None) hl1 hl2 hkn f2) as c1; cbv beta in c1.
      rewrite h1, h2 in hkn. rewrite h1 in hl1. rewrite h2 in hl2.
      pose proof (pms_search (lzero, None) hl1 hl2 hkn f3) as c2; cbv beta in c2.
      rewrite (swap_best3_reads rl (m_rl st2) hs' hb1 hb2). cbn [lift fst].
      rewrite (len_n HM) in *. lia.
    - intros c. rewrite e1. cbn [bind]. rewrite e2. cbn [bind]. intros e. rewrite (swap_best3_iter _ _ _ e). auto.
  Qed.

  Lemma runs3_reads k maxiter (st1 st2 : mst Nt Lt) :
    1 <= n -> 3 <= k -> q_good n D k st1 -> length (m_rl st1) = k -> same3 st1 st2 ->
    forall s, whileM maxiter (fastmsc_iteration M) st1 = Ok s ->
    fst (cwhileM maxiter (fastmsc_iteration_n M) st1) + k * (n - 1) * (n - k) * m_iter s + n * (n - k) * m_iter st1 =
    fst (cwhileM maxiter (pms_iteration_n M) st2) + n * (n - k) * m_iter s + k * (n - 1) * (n - k) * m_iter st1.
  Proof.
    intros hn hk. set (w := k * (n - 1) * (n - k)). set (u := n * (n - k)). revert st1 st2.
    induction maxiter; intros st1 st2 hg hl hs s; cbn [whileM cwhileM].
    - intros e. injection e as <-. cbn. lia.
    - pose proof (iterations3_same HD hn hk hg hl hs) as h.
      destruct (iterations3_reads hn hk hg hl hs) as [hc hit]. fold w u in hc.
      pose proof (fastmsc_iteration_same M st1) as q1. pose proof (pms_iteration_same M st2) as q2.
      destruct (fastmsc_iteration M st1) as [[s1|s1]|]; [| |contradiction];
        destruct (pms_iteration M st2) as [[s2|s2]|]; try contradiction; cbn [bind].
      + specialize (hit _ eq_refl). cbn [state] in hit.
        destruct h as (g1 & g2 & g3). intros e. rewrite (fst_cbind _ _ q1), (fst_cbind _ _ q2).
        pose proof (IHmaxiter s1 s2 g2 g3 g1 s e) as ih. rewrite hit in ih. nia.
      + specialize (hit _ eq_refl). cbn [state] in hit.
        intros e. injection e as <-. rewrite (fst_cbind _ _ q1), (fst_cbind _ _ q2). cbn [cret fst]. rewrite hit. nia.
  Qed.

  Lemma pammedsil_reads_more med maxiter r : sizes n (length med) -> medoids n (length med) med -> 3 <= length med ->
    fastmsc (Lt := Lt) M med maxiter = Ok r ->
    fst (fastmsc_n (Lt := Lt) M med maxiter) + length med * (n - 1) * (n - length med) * r_iter r =
    fst (pammedsil_swap_n (Lt := Lt) M med maxiter) + n * (n - length med) * r_iter r.
  Proof.
    intros hs (hl & hnd & hin) hk e. assert (hn : 1 <= n) by (destruct hs; lia).
    destruct (emb_vals HD) as [he hdg].
    unfold fastmsc, fastmsc_n, pammedsil_swap_n, pammedsil_optimize_n in *.
    replace (length med =? 1) with false in * by (symmetry; apply Nat.eqb_neq; lia).
    replace (length med =? 2) with false in * by (symmetry; apply Nat.eqb_neq; lia).
    assert (hk2 : 2 <= length med) by lia.
    pose proof (initial_assignment3_ok (Lt := Lt) HM True hs hin hk2) as h.
    apply oks_inv in h as ([loss data] & ei & hd & hsum & hown). rewrite ei in e. cbn [bind fst snd] in *.
    assert (hg0 : forall rl, q_good n D (length med) (mkM med data rl loss 0 0 0)).
    { intros rl. constructor; cbn; auto.
      - constructor; auto.
      - eauto.
      - eapply ratio_sum_rtot; eauto. }
    assert (hsame : same3 (mkM med data (repeat lzero (length med)) loss 0 0 0)
                          (mkM med data [] loss 0 0 0)) by (unfold same3; auto 10).
    apply bind_ok in e as (s & es & e). injection e as <-.
    pose proof (runs3_reads maxiter hn hk (hg0 _) (repeat_length _ _) hsame es) as h.
    pose proof (runs3_same HD maxiter hn hk (hg0 _) (repeat_length _ _) hsame) as h'. rewrite es in h'.
    destruct (whileM maxiter (pms_iteration M) _) as [s2|] eqn:es2; [|contradiction].
    assert (ei' : snd (initial_assignment3_n (Lt := Lt) M med) = Ok (loss, data)) by (rewrite initial_assignment3_same; auto).
    rewrite !(fst_cbind _ _ ei').
    assert (f1 : snd (cwhileM maxiter (fastmsc_iteration_n M) (mkM med data (repeat lzero (length med)) loss 0 0 0)) = Ok s).
    { rewrite <- es. apply snd_cwhileM. intros x. apply fastmsc_iteration_same. }
    assert (f2 : snd (cwhileM maxiter (pms_iteration_n M) (mkM med data [] loss 0 0 0)) = Ok s2).
    { rewrite <- es2. apply snd_cwhileM. intros x. apply pms_iteration_same. }
    rewrite (fst_cbind _ _ f1), (fst_cbind _ _ f2). cbn [r_iter cret fst m_iter] in *. lia.
  Qed.
End Same3.

(** ** silhouette.rs: only the early return for a single cluster saves anything *)
Section Sil.
  Context {Nt Lt : Type} `{HNN : NumN Nt} `{HNL : NumL Lt} `{HFN : FromN Nt Lt}.
  Variable M : Mat Nt.

  Lemma sil_buf_exact assi i : i < length assi ->
    cok (sil_buf_n (Lt := Lt) M assi i) (fun c buf => length buf = width assi /\ c = length assi - 1).
  Proof.
    intros hi. apply cok_and; [|apply sil_buf_cost; auto].
    intros buf e. rewrite sil_buf_same in e. apply sil_buf_len with (1 := e).
  Qed.

  Lemma silhouette_cost_exact assi samples : cok (silhouette_n (Lt := Lt) M assi samples) (fun c _ =>
    c = if width assi =? 1 then length assi - 1 else length assi * (length assi - 1)).
  Proof.
    unfold silhouette_n.
    eapply cok_bind; [apply cok_lift with (Q := fun c _ => c = 0); auto|]. intros c sq ->.
    eapply cok_bind; [apply cok_lift with (Q := fun c _ => c = 0); auto|]. intros c u ->.
    eapply cok_bind with (P := fun c _ =>
      c = if width assi =? 1 then length assi - 1 else length assi * (length assi - 1)).
    - assert (G : forall l st, (forall p, In p l -> fst p < length assi) ->
        cok (cforM (sil_step_n (Lt := Lt) M samples assi) l st) (fun c _ =>
          c = if width assi =? 1 then (if length l =? 0 then 0 else length assi - 1) else length l * (length assi - 1))).
      { induction l as [|[i ai] l IH]; intros st hl; cbn [cforM length].
        - apply cok_ret. destruct (width assi =? 1); auto.
        - eapply cok_bind with (P := fun c x => c = length assi - 1 /\
            if width assi =? 1 then exists s, x = Break s else exists s, x = Next s).
          + unfold sil_step_n. eapply cok_bind; [apply sil_buf_exact; apply (hl (i, ai)); simpl; auto|].
            intros c buf [hb ->]. rewrite hb. destruct (width assi =? 1).
            * apply cok_ret. split; [lia|eauto].
            * eapply cok_bind; [apply cok_lift with (Q := fun c _ => c = 0); auto|]. intros c x ->.
              eapply cok_bind; [apply cok_lift with (Q := fun c _ => c = 0); auto|]. intros c y ->.
              apply cok_ret. split; [lia|eauto].
          + intros c x [-> hx]. cbn [Nat.eqb]. destruct (width assi =? 1); destruct hx as [s ->].
            * apply cok_ret. lia.
            * eapply cok_mono; [apply IH; intros p hp; apply hl; simpl; auto|]. cbv beta. intros c _ ->. cbn [Nat.mul]. lia. }
      eapply cok_mono; [apply G|].
      + intros [i ai] hin. apply in_combine_l, in_seq in hin. cbn [fst]. lia.
      + cbv beta. intros c _ ->. rewrite length_enum. destruct (width assi =? 1); [|auto].
        destruct (Nat.eqb_spec (length assi) 0); lia.
    - cbv beta. intros c st ->. destruct (sl_done st); [apply cok_ret; lia|].
      eapply cok_bind; [apply cok_lift with (Q := fun c _ => c = 0); auto|]. intros c' x ->. apply cok_ret. lia.
  Qed.
End Sil.
