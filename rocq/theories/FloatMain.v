(** FloatMain.v -- what remains true when only comparisons of dissimilarities are exact.

    The dissimilarities satisfy [OrdLaws] (e.g. finite binary64 numbers); nothing is assumed of the
    arithmetic of the losses, which decides what is swapped with what. *)
From Coq Require Import ZArith QArith Lqa Lia Permutation.
From Verif Require Import Base Num M_Mat M_Util M_Fasterpam M_Pam M_Alternating M_ParFasterpam M_Silhouette M_Msc Hoare
  Spec SpecFacts Laws PamShape FpFacts ChooseFacts PamFacts BuildFacts AltFacts ParFacts PamMain MscShape MscFacts.
Set Implicit Arguments.
Open Scope nat_scope.

Section Round.
  Context {Nt Lt : Type} `{HO : OrdLaws Nt} `{HNL : NumL Lt} `{HFN : FromN Nt Lt}.
  Variable M : Mat Nt.
  Variable n : nat.
  Variable D : nat -> nat -> Nt.
  Hypothesis HD : diss_matrix M n D.
  Local Notation v := (vals D).

  (** medoids and assignment fit together *)
  Definition fits (k : nat) (med assi : list nat) : Prop :=
    medoids n k med /\ length assi = n /\ (forall o, o < n -> nearest v o med (nth o assi 0)) /\
    (forall c, c < k -> nth (nth c med 0) assi 0 = c).

  (** the dissimilarities of the assigned medoids, as losses *)
  Definition assigned (med assi : list nat) : list Lt :=
    map (fun o => lfrom (D o (nth (nth o assi 0) med 0))) (seq 0 n).

  Lemma data_fits med data : inr n med -> data_ok n D med data -> NoDup med -> data_own med data ->
    fits (length med) med (assignment_of data).
  Proof.
    intros hin [hl hd] hnd ho. destruct (emb_vals HD) as [he hg].
    assert (hnth : forall o r, nth_error data o = Some r -> nth o (assignment_of data) 0 = as_usize (di (near r))).
    { intros o r hr. apply nth_error_nth. unfold assignment_of. rewrite nth_error_map, hr. auto. }
    split; [split; auto|]. split; [unfold assignment_of; rewrite map_length; auto|]. split.
    - intros o hoo. destruct (nth_error_ex data (i := o)) as [r hr]; [lia|]. rewrite (hnth o r hr).
      destruct (hd o r hr) as (a & b & ha & _ & _ & [ea _] & _ & hm). rewrite ea. cbn [as_usize].
      split; [auto|]. apply (hm hg v he).
    - intros c hc. assert (hcn : nth c med 0 < n) by (apply inr_nth; auto).
      destruct (nth_error_ex data (i := nth c med 0)) as [r hr]; [lia|]. rewrite (hnth _ r hr).
      rewrite (ho _ r hr c hc eq_refl). auto.
  Qed.

  Lemma nears_assigned med data : inr n med -> data_ok n D med data ->
    map (fun r => lfrom (dd (near r))) data = assigned med (assignment_of data).
  Proof.
    intros hin [hl hd]. destruct (emb_vals HD) as [he hg].
    apply nth_ext with (d := lzero) (d' := lzero).
    { unfold assigned. rewrite !map_length, seq_length. auto. }
    intros o ho. rewrite map_length in ho. destruct (nth_error_ex data (i := o)) as [r hr]; [auto|].
    rewrite (nth_error_nth (map _ data) o lzero (x := lfrom (dd (near r)))) by (rewrite nth_error_map, hr; auto).
    symmetry. apply nth_error_nth. unfold assigned. rewrite nth_error_map, nth_error_seq by lia. cbn [option_map].
    unfold assignment_of. rewrite (nth_error_nth (map _ data) o 0 (x := as_usize (di (near r)))) by (rewrite nth_error_map, hr; auto).
    destruct (hd o r hr) as (a & b & ha & _ & _ & [ea ed] & _). rewrite ea, (ed hg). auto.
  Qed.

  Lemma near_sum_assigned med data : inr n med -> data_ok n D med data ->
    near_sum data = reduce ladd (assigned med (assignment_of data)).
  Proof. intros h1 h2. unfold near_sum. f_equal. apply nears_assigned; auto. Qed.

  Lemma single_fits med : length med = 1 -> inr n med ->
    oks (single_medoid (Lt := Lt) M med) (fun r => fits 1 (r_med r) (r_assi r)).
  Proof.
    intros hl hin. pose proof (proj1 HD) as HM.
    eapply oks_mono; [apply (single_medoid_shape (Lt := Lt) HM hl hin)|].
    intros r (e1 & _ & b & hb & e2 & _). rewrite e1, e2. unfold fits, medoids.
    split; [split; [auto|]; split; [repeat constructor; auto|intros m [<-|[]]; auto]|].
    split; [apply repeat_length|]. split.
    - intros o ho. rewrite nth_repeat. split; [simpl; lia|]. intros c hc. simpl in hc.
      assert (c = 0) as -> by lia. apply Qle_refl.
    - intros c hc. assert (c = 0) as -> by lia. apply nth_repeat.
  Qed.

  (** ** fasterpam, rand_fasterpam *)
  Lemma fasterpam_order_fits order med maxiter :
    sizes n (length med) -> medoids n (length med) med -> (forall j, In j order -> j < n) ->
    oks (fasterpam_order (Lt := Lt) M order med maxiter) (fun r =>
      fits (length med) (r_med r) (r_assi r) /\
      (2 <= length med -> lfrom (nzero : Nt) = (lzero : Lt) ->
         reduce ladd (assigned (r_med r) (r_assi r)) = Some (r_loss r))).
  Proof.
    intros hs (_ & hnd & hin) ho. pose proof (proj1 HD) as HM. destruct (emb_vals HD) as [he hg].
    destruct (Nat.eq_dec (length med) 1) as [e1|e1].
    - unfold fasterpam_order. rewrite e1. cbn [Nat.eqb].
      eapply oks_mono; [apply single_fits; auto|]. intros r hr. split; [auto|lia].
    - assert (hk : 2 <= length med) by (destruct hs; lia).
      eapply oks_mono; [apply (fasterpam_order_shape (Lt := Lt) HM order maxiter hs hin hk ho)|].
      intros r (st & [i1 i2 i3 i4] & -> & _ & _ & hown & hsum). cbn [r_med r_assi r_loss].
      destruct (hown v hg he hnd) as [g1 g2].
      split; [rewrite <- i1; apply data_fits; auto|].
      intros _ hz. rewrite <- near_sum_assigned by auto. auto.
  Qed.

  (** ** fastpam1, pam *)
  Hypothesis zero_irrefl : lltb (lzero : Lt) lzero = false.

  Definition loss_or_break (data : list (Rec Nt)) (loss : Lt) : Prop :=
    near_sum data = Some loss \/ exists s, near_sum data = Some s /\ lleb loss s = true.

  Record pf_inv (k : nat) (st : pst Nt Lt) : Prop := {
    pf_p : p_inv n D k st;
    pf_nodup : NoDup (p_med st);
    pf_own : data_own (p_med st) (p_data st)
  }.

  (** the candidate is not a medoid *)
  Definition best_new (st : pst Nt Lt) (best : best_swap) : Prop :=
    match snd best with
    | None => fst best = (lzero : Lt)
    | Some (b, j) => b < length (p_med st) /\ j < n /\ ~ In j (p_med st)
    end.

  Lemma not_medoid k st j r : pf_inv k st -> nth_error (p_data st) j = Some r ->
    nth (as_usize (di (near r))) (p_med st) 0 <> j -> ~ In j (p_med st).
  Proof.
    intros [hi hnd hown] hr hne hin. apply nth_In_iff in hin as (c & hc1 & hc2).
    pose proof (hown j r hr c hc1 hc2) as e. rewrite e in hne. auto.
  Qed.

  Lemma swap_best_fits k st rl best :
    1 <= n -> lfrom (nzero : Nt) = (lzero : Lt) -> pf_inv k st -> best_new st best -> near_sum (p_data st) = Some (p_loss st) ->
    oks (swap_best M st rl best) (fun c => match c with
      | Next s => pf_inv k s /\ p_rl s = rl /\ near_sum (p_data s) = Some (p_loss s)
      | Break s => pf_inv k s /\ p_rl s = rl /\ loss_or_break (p_data s) (p_loss s)
      end).
  Proof.
    intros hn hz hi hb hsum. pose proof (proj1 HD) as HM. destruct (emb_vals HD) as [he hg].
    pose proof hi as [[i1 i2 i3] hnd hown]. unfold swap_best.
    destruct (lltb (fst best) lzero) eqn:e.
    - unfold best_new in hb. destruct (snd best) as [[b j]|]; [|congruence].
      destruct hb as (hb & hj & hjm).
      pose proof (do_swap_ok (Lt := Lt) HM hn i2 hj hb i3) as hs.
      apply oks_inv in hs as ([[med' data'] loss'] & -> & -> & hd & s2 & s3 & s4). cbn [bind].
      assert (hs' : near_sum data' = Some loss').
      { rewrite <- s2. symmetry. apply near_sum0_near_sum; auto. intros r hr. rewrite (s3 r hr). auto. }
      assert (hi' : forall l, pf_inv k (mkP (set_nth (p_med st) b j) data' rl l (S (p_swaps st)) (p_iter st))).
      { intros l. constructor; cbn [p_med p_data].
        - constructor; cbn [p_med p_data]; auto; [rewrite length_set_nth; auto|apply inr_set_nth; auto].
        - apply NoDup_set_nth; auto.
        - eapply s4; eauto. }
      destruct (lleb (p_loss st) loss') eqn:el; cbn [oks p_rl p_data p_loss].
      + split; [auto|]. split; [auto|]. right. exists loss'. auto.
      + auto.
    - cbn [oks p_rl p_data p_loss]. split; [|split; [auto|left; auto]].
      constructor; auto. constructor; auto.
  Qed.

  Lemma fastpam1_cand_new k st rl best j :
    1 <= k -> pf_inv k st -> length rl = k -> best_new st best -> j < n ->
    oks (fastpam1_cand M (p_med st) (p_data st) rl best j) (best_new st).
  Proof.
    intros hk hi hl hb hj. pose proof (proj1 HD) as HM. pose proof hi as [[i1 i2 i3] hnd hown].
    unfold fastpam1_cand.
    destruct (nth_error_ex (p_data st) (i := j)) as [r hr]; [destruct i3; lia|].
    rewrite (idx_some _ _ hr). cbn [bind].
    destruct (rec2_near (proj2 i3 j r hr)) as (a & ea & ha).
    pose proof (not_medoid hi hr) as hnm. rewrite ea in *. cbn [as_usize] in *.
    rewrite idx_nth with (d := 0) by auto. cbn [bind].
    destruct (Nat.eqb_spec j (nth a (p_med st) 0)) as [|hne]; [auto|].
    assert (hf : oks (find_best_swap M rl (p_data st) j) (fun p => snd p < length (p_med st))).
    { apply find_best_swap_idx with (n := n) (D := D); auto; lia. }
    apply oks_inv in hf as ([change b] & -> & hb'). cbn [bind].
    destruct (lleb (fst best) change); cbn [oks]; auto.
    unfold best_new. cbn [snd] in *. auto.
  Qed.

  Lemma pam_cand_new k st best j :
    pf_inv k st -> best_new st best -> j < n ->
    oks (pam_cand M (p_med st) (p_data st) best j) (best_new st).
  Proof.
    intros hi hb hj. pose proof (proj1 HD) as HM. pose proof hi as [[i1 i2 i3] hnd hown].
    unfold pam_cand.
    destruct (nth_error_ex (p_data st) (i := j)) as [r hr]; [destruct i3; lia|].
    rewrite (idx_some _ _ hr). cbn [bind].
    destruct (rec2_near (proj2 i3 j r hr)) as (a & ea & ha).
    pose proof (not_medoid hi hr) as hnm. rewrite ea in *. cbn [as_usize] in *.
    rewrite idx_nth with (d := 0) by auto. cbn [bind].
    destruct (Nat.eqb_spec j (nth a (p_med st) 0)) as [|hne]; [auto|].
    unfold find_best_swap_pam. rewrite (idx_some _ _ hr). cbn [bind].
    eapply oks_bind.
    - apply foldM_inv with (I := fun (p : Lt * option nat) =>
        match snd p with None => fst p = lzero | Some b => b < length (p_med st) end); [reflexivity|].
      intros m s hm hs. apply in_seq in hm.
      eapply oks_bind; [eapply pam_change_shape; eauto|].
      intros acc _. cbn [oks]. destruct (lltb acc (fst s)); auto. cbn [snd]. lia.
    - intros [change [b|]] hcb; cbn [fst snd] in hcb; cbn [fst snd];
        destruct (lleb (fst best) change); cbn [oks]; auto; unfold best_new; cbn [fst snd]; auto.
  Qed.

  Definition pf_done (k : nat) (st : pst Nt Lt) : Prop :=
    pf_inv k st /\ loss_or_break (p_data st) (p_loss st).

  Lemma fastpam1_run k maxiter st :
    1 <= n -> 1 <= k -> lfrom (nzero : Nt) = (lzero : Lt) -> pf_inv k st -> length (p_rl st) = k ->
    near_sum (p_data st) = Some (p_loss st) ->
    oks (whileM maxiter (fastpam1_iteration M) st) (pf_done k).
  Proof.
    intros hn hk hz hi hl hsum. pose proof (proj1 HD) as HM.
    apply whileM_oks with (I := fun _ st => pf_inv k st /\ length (p_rl st) = k /\
      near_sum (p_data st) = Some (p_loss st)); [auto| |].
    - clear st hi hl hsum. intros i st hlt (hi & hl & hsum). unfold fastpam1_iteration.
      cbn [p_med p_data p_rl p_loss p_swaps p_iter].
      set (st1 := mkP (p_med st) (p_data st) (p_rl st) (p_loss st) (p_swaps st) (S (p_iter st))).
      pose proof hi as [[i1 i2 i3] hnd hown].
      assert (hi1 : pf_inv k st1) by (constructor; auto; constructor; auto).
      assert (hu : oks (update_removal_loss (p_data st) (p_rl st)) (fun rl => length rl = length (p_med st))).
      { apply update_removal_loss_len with (n := n) (D := D); auto. congruence. }
      apply oks_inv in hu as (rl & -> & hrl). cbn [bind].
      eapply oks_bind with (P := best_new st1).
      + apply foldM_inv; [reflexivity|]. intros j best hj hb. apply in_seq in hj.
        rewrite (len_n HM) in hj. apply fastpam1_cand_new with (k := k) (st := st1); auto; lia.
      + intros best hb. eapply oks_mono; [apply swap_best_fits with (k := k); auto|].
        intros [s|s] (h1 & h2 & h3).
        * split; [auto|]. split; [congruence|auto].
        * split; auto.
    - intros s (h1 & h2 & h3). split; [auto|]. left. auto.
  Qed.

  Lemma pam_run k maxiter st :
    1 <= n -> lfrom (nzero : Nt) = (lzero : Lt) -> pf_inv k st -> near_sum (p_data st) = Some (p_loss st) ->
    oks (whileM maxiter (pam_iteration M) st) (pf_done k).
  Proof.
    intros hn hz hi hsum. pose proof (proj1 HD) as HM.
    apply whileM_oks with (I := fun _ st => pf_inv k st /\ near_sum (p_data st) = Some (p_loss st)); [auto| |].
    - clear st hi hsum. intros i st hlt (hi & hsum). unfold pam_iteration.
      cbn [p_med p_data p_rl p_loss p_swaps p_iter].
      set (st1 := mkP (p_med st) (p_data st) (p_rl st) (p_loss st) (p_swaps st) (S (p_iter st))).
      pose proof hi as [[i1 i2 i3] hnd hown].
      assert (hi1 : pf_inv k st1) by (constructor; auto; constructor; auto).
      eapply oks_bind with (P := best_new st1).
      + apply foldM_inv; [reflexivity|]. intros j best hj hb. apply in_seq in hj.
        rewrite (len_n HM) in hj. apply pam_cand_new with (k := k) (st := st1); auto; lia.
      + intros best hb. eapply oks_mono; [apply swap_best_fits with (k := k); auto|].
        intros [s|s] (h1 & h2 & h3); split; auto.
    - intros s (h1 & h2). split; [auto|]. left. auto.
  Qed.

  Definition loss_known (r : pam_result Lt) : Prop :=
    exists s, reduce ladd (assigned (r_med r) (r_assi r)) = Some s /\
      (r_loss r = s \/ lleb (r_loss r) s = true).

  Lemma done_fits k st : pf_done k st ->
    fits k (p_med st) (assignment_of (p_data st)) /\
    loss_known (mkPR (p_loss st) (assignment_of (p_data st)) (p_iter st) (p_swaps st) (p_med st)).
  Proof.
    intros [[[i1 i2 i3] hnd hown] hl]. split; [rewrite <- i1; apply data_fits; auto|].
    unfold loss_known. cbn [r_med r_assi r_loss].
    rewrite <- near_sum_assigned by auto. destruct hl as [hl|(s & h1 & h2)]; eauto.
  Qed.

  Lemma fastpam1_fits med maxiter :
    sizes n (length med) -> medoids n (length med) med -> lfrom (nzero : Nt) = (lzero : Lt) ->
    oks (fastpam1 (Lt := Lt) M med maxiter) (fun r =>
      fits (length med) (r_med r) (r_assi r) /\ (2 <= length med -> loss_known r)).
  Proof.
    intros hs (_ & hnd & hin) hz. pose proof (proj1 HD) as HM. destruct (emb_vals HD) as [he hg].
    unfold fastpam1. destruct (Nat.eqb_spec (length med) 1) as [e1|e1].
    - rewrite e1. eapply oks_mono; [apply single_fits; auto|]. intros r hr. split; [auto|lia].
    - assert (hk : 2 <= length med) by (destruct hs; lia). assert (hn : 1 <= n) by (destruct hs; lia).
      pose proof (initial_assignment_ok (Lt := Lt) HM hs hin hk) as h.
      apply oks_inv in h as ([loss data] & -> & hd & hsum & hown). cbn [bind fst snd] in *.
      eapply oks_bind.
      + apply fastpam1_run with (k := length med); auto; [lia| |apply repeat_length].
        constructor; cbn [p_med p_data]; eauto. constructor; auto.
      + intros st h. apply done_fits in h as [h1 h2]. cbn [oks r_med r_assi]. auto.
  Qed.

  Lemma pam_swap_fits med maxiter :
    sizes n (length med) -> medoids n (length med) med -> lfrom (nzero : Nt) = (lzero : Lt) ->
    oks (pam_swap (Lt := Lt) M med maxiter) (fun r =>
      fits (length med) (r_med r) (r_assi r) /\ (2 <= length med -> loss_known r)).
  Proof.
    intros hs (_ & hnd & hin) hz. pose proof (proj1 HD) as HM. destruct (emb_vals HD) as [he hg].
    destruct (Nat.eqb_spec (length med) 1) as [e1|e1].
    - destruct med as [|x [|y l]]; cbn [length] in e1; try lia.
      assert (hx : x < n) by (apply hin; simpl; auto).
      destruct (single_all (Lt := Lt) HM (x := x) maxiter [] (mkOracle RSeq (fun _ _ => mkSched 1 [0]) (fun _ _ => RSeq)) hs hx) as (_ & _ & _ & _ & ->).
      eapply oks_mono; [apply single_fits; auto|]. cbn [length]. intros r hr. split; [auto|lia].
    - assert (hk : 2 <= length med) by (destruct hs; lia). assert (hn : 1 <= n) by (destruct hs; lia).
      unfold pam_swap.
      pose proof (initial_assignment_ok (Lt := Lt) HM hs hin hk) as h.
      apply oks_inv in h as ([loss data] & -> & hd & hsum & hown). cbn [bind fst snd] in *.
      unfold pam_optimize. apply Nat.eqb_neq in e1 as ->.
      eapply oks_bind.
      + apply pam_run with (k := length med); auto.
        constructor; cbn [p_med p_data]; eauto. constructor; auto.
      + intros st h. apply done_fits in h as [h1 h2]. cbn [oks r_med r_assi]. auto.
  Qed.

  (** ** alternating *)
  Lemma assign_nearest_fits med : sizes n (length med) -> medoids n (length med) med ->
    oks (assign_nearest (Lt := Lt) M med) (fun p =>
      fits (length med) med (snd p) /\ reduce ladd (assigned med (snd p)) = Some (fst p)).
  Proof.
    intros hs hm. pose proof (proj1 HD) as HM. destruct (emb_vals HD) as [he _].
    pose proof hm as (_ & hnd & hin).
    eapply oks_mono; [apply (assign_nearest_ok HM hs hin)|].
    intros [loss assi] (h1 & h2 & h3). cbn [fst snd] in *.
    split; [|auto]. split; [auto|]. split; [auto|]. split; [intros o ho; apply (h2 o ho); auto|].
    intros c hc. assert (hcn : nth c med 0 < n) by (apply inr_nth; auto).
    destruct (h2 _ hcn) as (_ & _ & h & _). eapply h; eauto.
  Qed.

  Lemma alt_medoids_fits k assi med : fits k med assi ->
    oks (alt_medoids (Lt := Lt) M assi med) (fun p =>
      medoids n k (fst p) /\ (snd p = false -> fst p = med)).
  Proof.
    intros ((hk & hnd & hin) & hl & _ & hown). pose proof (proj1 HD) as HM. unfold alt_medoids.
    eapply oks_mono.
    - apply foldM_inv with (I := fun p : list nat * bool => length (fst p) = k /\ inr n (fst p) /\
        (forall c, c < k -> nth (nth c (fst p) 0) assi 0 = c) /\ (snd p = false -> fst p = med)); [auto|].
      intros i [md ch] hi (h1 & h2 & h3 & h4). apply in_seq in hi. cbn [fst snd] in *.
      pose proof (choose_shape (Lt := Lt) HM assi hl (med := md) (m := i) ltac:(lia) h2) as hc.
      apply oks_inv in hc as ([[md' c] s] & -> & b & hb & -> & -> & hbi). cbn [bind oks fst snd].
      split; [rewrite length_set_nth; auto|]. split; [apply inr_set_nth; auto|]. split.
      + intros c hc. destruct (Nat.eq_dec c i) as [->|hne].
        * rewrite nth_set_nth_eq by lia. destruct hbi as [->|hbi]; auto.
        * rewrite nth_set_nth_neq by auto. auto.
      + intros hf. apply orb_false_iff in hf as [-> hf]. apply Bool.negb_false_iff, Nat.eqb_eq in hf. subst b.
        rewrite <- h4 by auto. apply nth_ext with (d := 0) (d' := 0); [apply length_set_nth|].
        intros c hc. destruct (Nat.eq_dec c i) as [->|hne].
        * rewrite nth_set_nth_eq by lia. auto.
        * rewrite nth_set_nth_neq by auto. auto.
    - intros [md ch] (h1 & h2 & h3 & h4). cbn [fst snd] in *. split; [|auto]. split; [auto|]. split; [|exact h2].
      apply NoDup_nth with (d := 0). intros a b ha hb e. rewrite h1 in *.
      rewrite <- (h3 a ha), <- (h3 b hb), e. auto.
  Qed.

  Lemma alternating_fits med maxiter : sizes n (length med) -> medoids n (length med) med ->
    oks (alternating (Lt := Lt) M med maxiter) (fun r =>
      fits (length med) (r_med r) (r_assi r) /\ reduce ladd (assigned (r_med r) (r_assi r)) = Some (r_loss r)).
  Proof.
    intros hs hm. unfold alternating. pose proof (assign_nearest_fits hs hm) as h.
    apply oks_inv in h as ([loss assi] & -> & hf & hl). cbn [bind fst snd] in *.
    eapply oks_bind.
    - apply whileM_oks with (I := fun _ (st : ast Lt) => fits (length med) (al_med st) (al_assi st) /\
        reduce ladd (assigned (al_med st) (al_assi st)) = Some (al_loss st)) (J := fun st =>
        fits (length med) (al_med st) (al_assi st) /\
        reduce ladd (assigned (al_med st) (al_assi st)) = Some (al_loss st)); [auto| |auto].
      intros i st _ (h1 & h2). unfold alt_iteration.
      pose proof (alt_medoids_fits h1) as h. apply oks_inv in h as ([med' ch] & -> & m1 & m2). cbn [bind fst snd] in *.
      destruct ch; cbn [negb].
      + assert (hl' : length med' = length med) by apply m1. rewrite <- hl' in hs, m1.
        pose proof (assign_nearest_fits hs m1) as h.
        apply oks_inv in h as ([loss' assi'] & -> & a1 & a2). cbn [bind oks al_med al_assi al_loss fst snd] in *.
        rewrite <- hl'. auto.
      + rewrite m2 by auto. cbn [oks al_med al_assi al_loss]. auto.
    - intros st h. exact h.
  Qed.

  (** ** par_fasterpam *)
  Lemma par_usn_stay med a b o d : inr n med -> o < n ->
    (forall i, i < length med -> i <> a -> i <> b -> nltb (D o (nth i med 0)) d = false) ->
    update_second_nearest M med a b o d = Ok (DP (Some b) d).
  Proof.
    intros hin ho h. pose proof (proj1 HD) as HM. unfold update_second_nearest.
    assert (G : oks (foldM (fun (s : dpair Nt) '(i, mi) =>
             if (i =? a) || (i =? b) then Ok s
             else d <- mget M o mi ;; Ok (if nltb d (dd s) then DP (Some i) d else s))
          (enum med) (DP (Some b) d)) (fun s => s = DP (Some b) d)).
    { apply foldM_inv; [auto|]. intros [i mi] s hi ->. apply In_enum in hi.
      destruct ((i =? a) || (i =? b)) eqn:e; [cbn; auto|].
      apply orb_false_iff in e as [e1 e2]. apply Nat.eqb_neq in e1, e2.
      rewrite (get_ok HM); [|auto|apply hin; apply nth_error_In with (1 := hi)]. cbn [bind oks dd].
      rewrite <- (nth_error_nth _ _ 0 hi). rewrite h; auto. apply nth_error_lt with (1 := hi). }
    apply oks_inv in G as (s & -> & ->). auto.
  Qed.

  Lemma par_obj_same med b j o r :
    inr n med -> o < n -> j < n -> b < length med -> rec2 n D (length med) med o r ->
    par_do_swap_obj (Lt := Lt) M (set_nth med b j) b j (o, r) =
    do_swap_obj (Lt := Lt) M (set_nth med b j) b j (o, r).
  Proof.
    intros hin ho hj hb hrec. pose proof (proj1 HD) as HM. destruct (emb_vals HD) as [he hg].
    destruct hrec as (a & s & h1 & h2 & h3 & [h4 h6] & [h5 h7] & hm). specialize (h7 hg).
    destruct (hm hg v he) as [m1 m2].
    unfold par_do_swap_obj, do_swap_obj. rewrite h4, h5. cbn [ieqb as_usize].
    destruct (o =? j); [auto|]. rewrite (get_ok HM) by auto. cbn [bind].
    destruct (a =? b); [auto|]. destruct (nltb (D o j) (dd (near r))); [auto|].
    destruct (nltb (D o j) (dd (seco r))) eqn:e2; [|destruct (s =? b); auto].
    destruct (s =? b) eqn:esb; [|auto]. apply Nat.eqb_eq in esb. subst s.
    rewrite par_usn_stay; auto using inr_set_nth.
    intros i hi hia hib. rewrite length_set_nth in hi. rewrite nth_set_nth_neq by auto.
    assert (hin1 : nth i med 0 < n) by (apply inr_nth; auto).
    assert (hin2 : nth b med 0 < n) by (apply inr_nth; auto).
    rewrite h7 in e2. apply (emb_true he) in e2; auto.
    destruct (nltb (D o (nth i med 0)) (D o j)) eqn:e; [|auto].
    apply (emb_true he) in e; auto. specialize (m2 i hi hia). lra.
  Qed.

  (** the summands of the loss after a swap *)
  Lemma swap_values med data b j rs :
    inr n med -> j < n -> b < length med -> data_ok n D med data ->
    mapM (do_swap_obj (Lt := Lt) M (set_nth med b j) b j) (enum data) = Ok rs -> lfrom (nzero : Nt) = (lzero : Lt) ->
    map snd rs = map (fun r => lfrom (dd (near r))) (map fst rs).
  Proof.
    intros hin hj hb [hlen hdata] e hz. pose proof (proj1 HD) as HM.
    assert (h : oks (mapM (do_swap_obj (Lt := Lt) M (set_nth med b j) b j) (enum data)) (fun rs =>
      length rs = length data /\ forall o r p, nth_error data o = Some r -> nth_error rs o = Some p ->
        snd p = (if o =? j then lzero else lfrom (dd (near (fst p)))) /\
        (o = j -> near (fst p) = DP (Some b) nzero))).
    { apply mapM_enum with (R := fun o r (p : Rec Nt * Lt) =>
        snd p = (if o =? j then lzero else lfrom (dd (near (fst p)))) /\ (o = j -> near (fst p) = DP (Some b) nzero)).
      intros o r hr. assert (ho : o < n) by (rewrite <- hlen; apply nth_error_lt with (1 := hr)).
      eapply oks_mono; [apply (do_swap_obj_ok (Lt := Lt) HM hin ho hj hb (hdata o r hr))|]. intros p hp. apply hp. }
    rewrite e in h. cbn [oks] in h. destruct h as [hl hr]. rewrite map_map. apply map_ext_in.
    intros p hp. apply In_nth_error in hp as (o & ho).
    destruct (nth_error_ex data (i := o)) as [r hr0]; [rewrite <- hl; apply nth_error_lt with (1 := ho)|].
    destruct (hr o r p hr0 ho) as [h1 h2]. rewrite h1. destruct (Nat.eqb_spec o j) as [->|]; [|auto].
    rewrite (h2 eq_refl). auto.
  Qed.

  Lemma par_swap_data t med data b j :
    1 <= n -> inr n med -> j < n -> b < length med -> data_ok n D med data ->
    exists data' loss loss',
      do_swap (Lt := Lt) M med data b j = Ok (set_nth med b j, data', loss) /\
      par_do_swap (Lt := Lt) M t med data b j = Ok (set_nth med b j, data', loss') /\
      (lfrom (nzero : Nt) = (lzero : Lt) -> treduce ladd t (map (fun r => lfrom (dd (near r))) data') = Some loss').
  Proof.
    intros hn hin hj hb [hl hd]. pose proof (proj1 HD) as HM.
    assert (hdata : data_ok n D med data) by (split; auto).
    pose proof (do_swap_ok (Lt := Lt) HM hn hin hj hb hdata) as h.
    apply oks_inv in h as ([[med' data'] loss] & e & -> & _). rewrite e.
    unfold par_do_swap. unfold do_swap in e.
    apply Nat.ltb_lt in hb as hb0. rewrite hb0 in *.
    rewrite (len_n HM) in *. apply Nat.ltb_lt in hj as hj0. rewrite hj0 in *. cbn [bind assertb] in *.
    rewrite upd_ok in * by auto. cbn [bind] in *.
    rewrite (mapM_same (par_do_swap_obj M (set_nth med b j) b j)
                       (do_swap_obj M (set_nth med b j) b j) (enum data)).
    2:{ intros [o r] h. apply In_enum in h.
        assert (ho : o < n) by (rewrite <- hl; apply nth_error_lt with (1 := h)).
        apply par_obj_same; auto. }
    pose proof (@swap_values med data b j) as hsv.
    destruct (mapM (do_swap_obj M (set_nth med b j) b j) (enum data)) as [rs|]; [|discriminate].
    specialize (hsv rs hin hj hb hdata eq_refl).
    cbn [bind] in *. destruct (reduce ladd (map snd rs)) as [y|] eqn:er; [|discriminate].
    destruct (treduce_some ladd t (l := map snd rs)) as (x & hx).
    { intros h. rewrite h in er. discriminate. }
    rewrite hx. cbn [unwrap bind] in *. injection e as e1 e2. subst data' loss.
    exists (map fst rs), y, x. split; [auto|]. split; [auto|]. intros hz. rewrite <- (hsv hz). exact hx.
  Qed.

  Record f_inv (k : nat) (st : fpst Nt Lt) : Prop := {
    fv_fp : fp_inv n D k st;
    fv_nodup : NoDup (fp_med st);
    fv_own : data_own (fp_med st) (fp_data st);
    fv_loss : lfrom (nzero : Nt) = (lzero : Lt) ->
      exists t, treduce ladd t (map (fun r => lfrom (dd (near r))) (fp_data st)) = Some (fp_loss st)
  }.

  Lemma data_ix med data : data_ok n D med data -> ix_data n (length med) data.
  Proof.
    intros [hl hd]. split; [auto|]. intros r hr. apply In_nth_error in hr as [o hr].
    destruct (hd o r hr) as (a & s & ha & hs & _ & [ea _] & [es _] & _). exists a, s. auto.
  Qed.

  Lemma par_cand_fits orc k st j : 1 <= n -> 1 <= k -> j < n -> f_inv k st ->
    oks (par_cand M orc st j) (fun c => f_inv k (match c with Break s => s | Next s => s end)).
  Proof.
    intros hn hk hj hi. pose proof (proj1 HD) as HM. destruct (emb_vals HD) as [he hg].
    pose proof hi as [[h1 h2 h3 h4] hnd hown _]. unfold par_cand.
    destruct (j =? fp_last st); [cbn; auto|].
    destruct (nth_error_ex (fp_data st) (i := j)) as [r hr]; [destruct h3; lia|].
    rewrite (idx_some _ _ hr). cbn [bind].
    destruct (rec2_near (proj2 h3 j r hr)) as (a & ea & ha).
    rewrite ea. cbn [as_usize]. rewrite idx_nth with (d := 0) by lia. cbn [bind].
    destruct (Nat.eqb_spec j (nth a (fp_med st) 0)) as [|hne]; [cbn; auto|].
    assert (hjm : ~ In j (fp_med st)).
    { intros hin. apply nth_In_iff in hin as (c & hc1 & hc2).
      pose proof (hown j r hr c hc1 hc2) as hc3. congruence. }
    pose proof (data_ix h3) as hix. rewrite h1 in hix.
    pose proof (par_fbs_shape HM (o_find orc (fp_iter st) j) (fp_rl st) hk h4 hix hj) as hf.
    apply oks_inv in hf as ([ch b] & -> & hb). cbn [bind snd] in *.
    destruct (lleb lzero ch); [cbn; auto|].
    assert (hb' : b < length (fp_med st)) by lia.
    destruct (par_swap_data (o_swap orc (fp_iter st) j) hn h2 hj hb' h3) as (data' & loss & loss' & e & -> & hls).
    cbn [bind].
    pose proof (do_swap_ok (Lt := Lt) HM hn h2 hj hb' h3) as hs. apply oks_elim with (2 := e) in hs.
    destruct hs as (_ & s1 & _ & _ & s4).
    assert (hl : length (fp_rl st) = length (set_nth (fp_med st) b j)) by (rewrite length_set_nth; congruence).
    pose proof (update_removal_loss_len (fp_rl st) s1 hl) as hu.
    apply oks_inv in hu as (rl' & -> & hu). cbn [bind oks]. rewrite length_set_nth in hu.
    constructor; cbn [fp_med fp_data].
    - constructor; cbn [fp_med fp_data fp_rl]; auto; [rewrite length_set_nth; auto|apply inr_set_nth; auto|lia].
    - apply NoDup_set_nth; auto.
    - eapply s4; eauto.
    - cbn [fp_loss]. intros hz. exists (o_swap orc (fp_iter st) j). auto.
  Qed.

  Lemma par_initial_data t med : sizes n (length med) -> inr n med -> 2 <= length med ->
    exists loss loss' data, initial_assignment (Lt := Lt) M med = Ok (loss, data) /\
      par_initial_assignment (Lt := Lt) M t med = Ok (loss', data) /\
      treduce ladd t (map (fun r => lfrom (dd (near r))) data) = Some loss'.
  Proof.
    intros hs hin hk. pose proof (proj1 HD) as HM.
    pose proof (initial_assignment_ok (Lt := Lt) HM hs hin hk) as h.
    apply oks_inv in h as ([loss data] & e & _). rewrite e.
    unfold par_initial_assignment. unfold initial_assignment in e.
    rewrite (check_input_ok HM hs) in *. cbn [bind] in *. rewrite idx_nth with (d := 0) in * by lia. cbn [bind] in *.
    assert (hv : oks (mapM (ia_obj (Lt := Lt) M med (nth 0 med 0)) (seq 0 (mlen M))) (fun rs =>
      length rs = mlen M /\ forall o (p : Rec Nt * Lt), nth_error rs o = Some p -> snd p = lfrom (dd (near (fst p))))).
    { rewrite (len_n HM). apply mapM_seq with (R := fun o (p : Rec Nt * Lt) => snd p = lfrom (dd (near (fst p)))).
      intros o ho. eapply oks_mono; [apply (ia_obj_ok (Lt := Lt) HM hin ho hk)|]. intros p hp. apply hp. }
    destruct (mapM (ia_obj M med (nth 0 med 0)) (seq 0 (mlen M))) as [rs|]; [|discriminate]. cbn [bind oks] in *.
    destruct (reduce ladd (map snd rs)) as [y|] eqn:er; [|discriminate].
    destruct (treduce_some ladd t (l := map snd rs)) as (x & hx).
    { intros h. rewrite h in er. discriminate. }
    rewrite hx. cbn [unwrap bind] in *. injection e as e1 e2. subst. exists loss, x, (map fst rs).
    split; [auto|]. split; [auto|]. rewrite <- hx. f_equal. rewrite map_map. apply map_ext_in.
    intros p hp. apply In_nth_error in hp as (o & ho). symmetry. apply (proj2 hv o p ho).
  Qed.

  Lemma par_fasterpam_fits orc order med maxiter :
    sizes n (length med) -> medoids n (length med) med -> (forall j, In j order -> j < n) ->
    oks (par_fasterpam (Lt := Lt) M orc order med maxiter) (fun r =>
      fits (length med) (r_med r) (r_assi r) /\
      (2 <= length med -> lfrom (nzero : Nt) = (lzero : Lt) ->
         exists t, treduce ladd t (assigned (r_med r) (r_assi r)) = Some (r_loss r))).
  Proof.
    intros hs (_ & hnd & hin) ho. pose proof (proj1 HD) as HM. destruct (emb_vals HD) as [he hg].
    unfold par_fasterpam. destruct (Nat.eqb_spec (length med) 1) as [e1|e1].
    { rewrite e1. eapply oks_mono; [apply single_fits; auto|]. intros r hr. split; [auto|lia]. }
    assert (hk : 2 <= length med) by (destruct hs; lia). assert (hn : 1 <= n) by (destruct hs; lia).
    destruct (par_initial_data (o_init orc) hs hin hk) as (loss & loss' & data & e & -> & hls). cbn [bind].
    pose proof (initial_assignment_ok (Lt := Lt) HM hs hin hk) as h. apply oks_elim with (2 := e) in h.
    destruct h as (hd & _ & hown). cbn [snd] in *.
    pose proof (update_removal_loss_len (repeat (lzero : Lt) (length med)) hd (repeat_length _ _)) as hu.
    apply oks_inv in hu as (rl & -> & hrl). cbn [bind].
    eapply oks_bind with (P := f_inv (length med)).
    - apply whileM_oks with (I := fun _ => f_inv (length med)); [| |auto].
      + constructor; cbn [fp_med fp_data]; eauto. constructor; auto.
      + intros i st _ hi. unfold par_iteration.
        eapply oks_bind with (P := f_inv (length med)).
        * apply forM_inv.
          -- destruct hi as [[i1 i2 i3 i4] g1 g2 g3]. constructor; auto. constructor; auto.
          -- intros j s hj his. eapply oks_mono; [apply par_cand_fits with (k := length med); auto; lia|].
             intros [s'|s'] h; exact h.
        * intros st' h. destruct (_ || _); exact h.
    - intros st [[i1 i2 i3 i4] g1 g2 g3]. cbn [oks r_med r_assi r_loss].
      split; [rewrite <- i1; apply data_fits; auto|]. intros _ hz. destruct (g3 hz) as (t & ht). exists t.
      rewrite <- nears_assigned by auto. exact ht.
  Qed.

  (** ** fastermsc, three or more medoids *)

  (** medoid number [b] is the nearest one of [o] after [a] *)
  Definition second (med : list nat) (o a b : nat) : Prop :=
    b < length med /\ b <> a /\
    forall c, c < length med -> c <> a -> (v o (nth b med 0%nat) <= v o (nth c med 0%nat))%Q.

  Definition ratios (med assi sec : list nat) : list Lt :=
    map (fun o => ratio (D o (nth (nth o assi 0) med 0)) (D o (nth (nth o sec 0) med 0))) (seq 0 n).

  Lemma fastermsc_fits med maxiter :
    sizes n (length med) -> medoids n (length med) med -> 3 <= length med ->
    oks (fastermsc (Lt := Lt) M med maxiter) (fun r =>
      fits (length med) (r_med r) (r_assi r) /\
      exists sec s, (forall o, o < n -> second (r_med r) o (nth o (r_assi r) 0) (nth o sec 0)) /\
        reduce ladd (ratios (r_med r) (r_assi r) sec) = Some s /\
        r_loss r = lsub lone (ldiv s (lfrom_u32 (as_u32 n)))).
  Proof.
    intros hs (_ & hnd & hin) hk. pose proof (proj1 HD) as HM. destruct (emb_vals HD) as [he hg].
    eapply oks_mono; [apply (fastermsc_shape (Lt := Lt) HM maxiter hs hin hk)|].
    intros r (st & [i1 i2 [hl hd] i4] & -> & _ & _ & hown & hsum). cbn [r_med r_assi r_loss].
    destruct (hown v hg he hnd) as [g1 g2].
    assert (hz : nis_zero (nzero : Nt) = true) by (apply nis_zero_spec; [apply okN_zero|apply vN_zero]).
    specialize (hsum hg hz).
    assert (hnth : forall o r, nth_error (m_data st) o = Some r ->
      nth o (assignment3_of (m_data st)) 0 = as_usize (di (near3 r))).
    { intros o r hr. apply nth_error_nth. unfold assignment3_of. rewrite nth_error_map, hr. auto. }
    assert (hnth2 : forall o r, nth_error (m_data st) o = Some r ->
      nth o (map (fun r => as_usize (di (seco3 r))) (m_data st)) 0 = as_usize (di (seco3 r))).
    { intros o r hr. apply nth_error_nth. rewrite nth_error_map, hr. auto. }
    split.
    - split; [split; auto|]. split; [unfold assignment3_of; rewrite map_length; auto|]. split.
      + intros o hoo. destruct (nth_error_ex (m_data st) (i := o)) as [r hr]; [lia|]. rewrite (hnth o r hr).
        destruct (hd o r hr) as (a & b & ha & _ & _ & [ea _] & _ & hm & _). rewrite ea. cbn [as_usize].
        split; [auto|]. apply (hm I hg v he).
      + intros c hc. rewrite <- i1 in hc. assert (hcn : nth c (m_med st) 0 < n) by (apply inr_nth; auto).
        destruct (nth_error_ex (m_data st) (i := nth c (m_med st) 0)) as [r hr]; [lia|]. rewrite (hnth _ r hr).
        rewrite (g2 _ r hr c hc eq_refl). auto.
    - exists (map (fun r => as_usize (di (seco3 r))) (m_data st)), (m_loss st). split; [|split].
      + intros o hoo. destruct (nth_error_ex (m_data st) (i := o)) as [r hr]; [lia|].
        rewrite (hnth o r hr), (hnth2 o r hr).
        destruct (hd o r hr) as (a & b & ha & hb & hab & [ea _] & [eb _] & hm & _). rewrite ea, eb. cbn [as_usize].
        split; [auto|]. split; [auto|]. apply (hm I hg v he).
      + rewrite <- hsum. unfold ratio_sum. f_equal. symmetry.
        apply nth_ext with (d := lzero) (d' := lzero).
        { unfold ratios. rewrite !map_length, seq_length. auto. }
        intros o ho. rewrite map_length in ho. destruct (nth_error_ex (m_data st) (i := o)) as [r hr]; [auto|].
        rewrite (nth_error_nth (map _ (m_data st)) o lzero (x := rec_ratio r)) by (rewrite nth_error_map, hr; auto).
        symmetry. apply nth_error_nth. unfold ratios. rewrite nth_error_map, nth_error_seq by lia. cbn [option_map Nat.add].
        rewrite (hnth o r hr), (hnth2 o r hr).
        destruct (hd o r hr) as (a & b & ha & hb & hab & [ea da] & [eb db] & _). rewrite ea, eb. cbn [as_usize].
        unfold rec_ratio. rewrite (da hg), (db hg). auto.
      + unfold to_silhouette. rewrite (len_n HM). auto.
  Qed.
End Round.

(** [x] is the sum of the numbers in [l], in this order, with some placement of the brackets *)
Inductive bracketed {Lt} `{NumL Lt} : list Lt -> Lt -> Prop :=
| b_one x : bracketed [x] x
| b_add l1 l2 a b : bracketed l1 a -> bracketed l2 b -> bracketed (l1 ++ l2) (ladd a b).

Lemma fold_bracketed {Lt} `{NumL Lt} (l l0 : list Lt) a : bracketed l0 a -> bracketed (l0 ++ l) (fold_left ladd l a).
Proof.
  revert l0 a. induction l as [|x l IH]; intros l0 a h; cbn [fold_left]; [rewrite app_nil_r; exact h|].
  change (x :: l) with ([x] ++ l). rewrite app_assoc. apply IH. apply b_add; [exact h|apply b_one].
Qed.

Lemma reduce_bracketed {Lt} `{NumL Lt} (l : list Lt) x : reduce ladd l = Some x -> bracketed l x.
Proof.
  destruct l as [|y l]; cbn [reduce]; intros h; [discriminate|]. injection h as <-.
  apply (fold_bracketed l (b_one y)).
Qed.

Lemma treduce_bracketed {Lt} `{NumL Lt} t (l : list Lt) x : treduce ladd t l = Some x -> bracketed l x.
Proof.
  revert l x. induction t as [|p t1 IH1 t2 IH2]; intros l x h; cbn [treduce] in h; [apply reduce_bracketed; exact h|].
  destruct (treduce ladd t1 (firstn p l)) as [a|] eqn:e1.
  - destruct (treduce ladd t2 (skipn p l)) as [b|] eqn:e2; injection h as <-.
    + rewrite <- (firstn_skipn p l). apply b_add; auto.
    + assert (hn : skipn p l = []).
      { destruct (skipn p l) as [|z zs]; [auto|]. destruct (treduce_some ladd t2 (l := z :: zs)) as (w & hw); [discriminate|].
        congruence. }
      rewrite <- (firstn_skipn p l), hn, app_nil_r. auto.
  - assert (hn : firstn p l = []).
    { destruct (firstn p l) as [|z zs]; [auto|]. destruct (treduce_some ladd t1 (l := z :: zs)) as (w & hw); [discriminate|].
      congruence. }
    rewrite <- (firstn_skipn p l), hn. cbn [app]. auto.
Qed.
