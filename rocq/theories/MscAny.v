(** MscAny.v -- fastmsc for three or more medoids and pammedsil_swap for two or more, with any loss type: what
    remains true when only comparisons of dissimilarities are exact. *)
From Coq Require Import ZArith QArith Lqa Lia Permutation.
From Verif Require Import Base Num M_Mat M_Util M_Fasterpam M_Silhouette M_Msc M_Pammedsil Hoare
  Spec SpecFacts Laws PamShape FpFacts ChooseFacts PamFacts MscShape MscFacts MscK2 FloatMain.
Set Implicit Arguments.
Open Scope nat_scope.

Section Any.
  Context {Nt Lt : Type} `{HO : OrdLaws Nt} `{HNL : NumL Lt} `{HFN : FromN Nt Lt}.
  Variable M : Mat Nt.
  Variable n : nat.
  Variable D : nat -> nat -> Nt.
  Hypothesis HD : diss_matrix M n D.
  (** the only law needed: [0 < 0] is false *)
  Hypothesis zero_irrefl : lltb (lzero : Lt) lzero = false.
  Local Notation v := (vals D).
  Let HM : is_matrix M n D := proj1 HD.

  Record own_inv (k : nat) (st : mst Nt Lt) : Prop := {
    oi_shape : q_inv n D k st;
    oi_nodup : NoDup (m_med st);
    oi_own : data3_own (m_med st) (m_data st)
  }.

  (** the best swap found brings in an object which is no medoid *)
  Definition best_fresh (med : list nat) (best : Lt * option (nat * nat)) : Prop :=
    match snd best with
    | None => fst best = lzero
    | Some (b, j) => b < length med /\ j < n /\ ~ In j med
    end.

  Lemma own_not_in k st j r a : own_inv k st -> nth_error (m_data st) j = Some r -> di (near3 r) = Some a ->
    j <> nth a (m_med st) 0 -> ~ In j (m_med st).
  Proof.
    intros [_ _ ho] hr ea hne hin. apply nth_In_iff in hin as (c & hc1 & hc2).
    pose proof (ho j r hr c hc1 hc2) as hc3. congruence.
  Qed.

  Lemma swap_best3_own k st rl best :
    1 <= n -> 2 <= k -> own_inv k st -> best_fresh (m_med st) best ->
    oks (swap_best3 M st rl best) (fun c => let s := match c with Next s => s | Break s => s end in
      own_inv k s /\ m_rl s = rl).
  Proof.
    intros hn hk hi hb. unfold swap_best3. pose proof hi as [[i1 i2 i3] hnd ho]. destruct (emb_vals HD) as [he hg].
    destruct (lltb lzero (fst best)) eqn:e.
    - unfold best_fresh in hb. destruct (snd best) as [[b j]|] eqn:es; [|rewrite hb in e; congruence].
      destruct hb as (hb & hj & hni). assert (hk3 : 2 <= length (m_med st)) by lia.
      pose proof (do_swap3_ok (Lt := Lt) HM hn i2 hj hb hk3 i3) as hs.
      apply oks_inv in hs as ([[med' data'] loss'] & -> & -> & hd & _ & _ & hown). cbn [bind].
      assert (hq : forall loss' l' s' i' rl', own_inv k (mkM (set_nth (m_med st) b j) data' rl' loss' l' s' i')).
      { intros. constructor; cbn [m_med m_data].
        - constructor; cbn [m_med m_data]; auto; [rewrite length_set_nth; auto|apply inr_set_nth; auto].
        - apply NoDup_set_nth; auto.
        - apply hown with v; auto. }
      destruct (lleb (m_loss st) loss'); cbn [oks m_rl]; auto.
    - cbn [oks m_rl]. split; [constructor; [constructor|..]; auto|auto].
  Qed.

  Lemma fastmsc_cand_own k st rl best j :
    1 <= k -> own_inv k st -> length rl = k -> best_fresh (m_med st) best -> j < n ->
    oks (fastmsc_cand M (m_med st) (m_data st) rl best j) (best_fresh (m_med st)).
  Proof.
    intros hk hi hl hb hj. pose proof hi as [[i1 i2 i3] hnd ho]. unfold fastmsc_cand.
    destruct (nth_error_ex (m_data st) (i := j)) as [r hr]; [destruct i3; lia|].
    rewrite (idx_some _ _ hr). cbn [bind].
    destruct (rec3_near (proj2 i3 j r hr)) as (a & a2 & ea & ha & _).
    rewrite ea. cbn [as_usize]. rewrite idx_nth with (d := 0) by auto. cbn [bind].
    destruct (Nat.eqb_spec j (nth a (m_med st) 0)) as [ej|nj]; [auto|].
    assert (hf : oks (find_best_swap3 M rl (m_data st) j) (fun p => snd p < length (m_med st))).
    { eapply find_best_swap3_idx; eauto; lia. }
    apply oks_inv in hf as ([change b] & -> & hb'). cbn [bind].
    destruct (lleb change (fst best)); cbn [oks]; auto.
    unfold best_fresh. cbn [snd] in *. split; [auto|]. split; [auto|]. eapply own_not_in; eauto.
  Qed.

  Lemma pms_cand_own k st best j :
    own_inv k st -> best_fresh (m_med st) best -> j < n ->
    oks (pms_cand M (m_med st) (m_data st) best j) (best_fresh (m_med st)).
  Proof.
    intros hi hb hj. pose proof hi as [[i1 i2 i3] hnd ho]. unfold pms_cand.
    destruct (nth_error_ex (m_data st) (i := j)) as [r hr]; [destruct i3; lia|].
    rewrite (idx_some _ _ hr). cbn [bind].
    destruct (rec3_near (proj2 i3 j r hr)) as (a & a2 & ea & ha & _).
    rewrite ea. cbn [as_usize]. rewrite idx_nth with (d := 0) by auto. cbn [bind].
    destruct (Nat.eqb_spec j (nth a (m_med st) 0)) as [ej|nj]; [auto|].
    unfold find_best_swap_pms. rewrite (idx_some _ _ hr). cbn [bind].
    eapply oks_bind.
    - apply foldM_inv with (I := fun (p : Lt * option nat) =>
        match snd p with None => fst p = lzero | Some b => b < length (m_med st) end); [reflexivity|].
      intros m s hm hs. apply in_seq in hm.
      eapply oks_bind; [eapply pms_change_shape; eauto|].
      intros acc _. cbn [oks]. destruct (lltb (fst s) acc); auto. cbn [snd]. lia.
    - intros [change [b|]] hcb; cbn [fst snd] in hcb; cbn [fst snd];
        destruct (lleb change (fst best)); cbn [oks]; auto; unfold best_fresh; cbn [fst snd]; auto.
      split; [auto|]. split; [auto|]. eapply own_not_in; eauto.
  Qed.

  Lemma own_inc k st : own_inv k st ->
    own_inv k (mkM (m_med st) (m_data st) (m_rl st) (m_loss st) (m_last st) (m_swaps st) (S (m_iter st))).
  Proof. intros [[] ? ?]. constructor; auto. constructor; auto. Qed.

  Lemma fastmsc_iteration_own k st :
    1 <= n -> 2 <= k -> own_inv k st -> length (m_rl st) = k ->
    oks (fastmsc_iteration M st) (fun c => let s := match c with Next s => s | Break s => s end in
      own_inv k s /\ length (m_rl s) = k).
  Proof.
    intros hn hk hi hl. unfold fastmsc_iteration. pose proof (own_inc hi) as hi1.
    cbn [m_med m_data m_rl m_loss m_last m_swaps m_iter].
    pose proof hi as [[i1 i2 i3] _ _].
    assert (hu : oks (update_removal_loss3 (m_data st) (m_rl st)) (fun rl => length rl = length (m_med st))).
    { eapply update_removal_loss3_len; eauto. congruence. }
    apply oks_inv in hu as (rl & -> & hrl). cbn [bind].
    eapply oks_bind with (P := best_fresh (m_med st)).
    - apply foldM_inv; [reflexivity|]. intros j best hj hb. apply in_seq in hj.
      rewrite (len_n HM) in hj. apply fastmsc_cand_own with (k := k); auto; lia.
    - intros best hb. eapply oks_mono; [apply swap_best3_own with (k := k); auto|].
      cbv zeta. intros c (h1 & h2). split; [auto|congruence].
  Qed.

  Lemma pms_iteration_own k st :
    1 <= n -> 2 <= k -> own_inv k st ->
    oks (pms_iteration M st) (fun c => own_inv k (match c with Next s => s | Break s => s end)).
  Proof.
    intros hn hk hi. unfold pms_iteration. pose proof (own_inc hi) as hi1.
    cbn [m_med m_data m_rl m_loss m_last m_swaps m_iter].
    eapply oks_bind with (P := best_fresh (m_med st)).
    - apply foldM_inv; [reflexivity|]. intros j best hj hb. apply in_seq in hj.
      rewrite (len_n HM) in hj. apply pms_cand_own with (k := k); auto; lia.
    - intros best hb. eapply oks_mono; [apply swap_best3_own with (k := k); auto|]. cbv zeta. intros c h. apply h.
  Qed.

  Lemma own_fits k st : own_inv k st -> fits n D k (m_med st) (assignment3_of (m_data st)).
  Proof.
    intros [[i1 i2 [hl hd]] hnd ho]. destruct (emb_vals HD) as [he hg].
    assert (hnth : forall o r, nth_error (m_data st) o = Some r ->
      nth o (assignment3_of (m_data st)) 0 = as_usize (di (near3 r))).
    { intros o r hr. apply nth_error_nth. unfold assignment3_of. rewrite nth_error_map, hr. auto. }
    split; [split; auto|]. split; [unfold assignment3_of; rewrite map_length; auto|]. split.
    - intros o hoo. destruct (nth_error_ex (m_data st) (i := o)) as [r hr]; [lia|]. rewrite (hnth o r hr).
      destruct (hd o r hr) as (a & b & ha & _ & _ & [ea _] & _ & hm & _). rewrite ea. cbn [as_usize].
      split; [auto|]. apply (hm I hg v he).
    - intros c hc. rewrite <- i1 in hc. assert (hcn : nth c (m_med st) 0 < n) by (apply inr_nth; auto).
      destruct (nth_error_ex (m_data st) (i := nth c (m_med st) 0)) as [r hr]; [lia|]. rewrite (hnth _ r hr).
      rewrite (ho _ r hr c hc eq_refl). auto.
  Qed.

  Lemma initial3_own med : sizes n (length med) -> medoids n (length med) med -> 2 <= length med ->
    oks (initial_assignment3 (Lt := Lt) M med) (fun p => forall rl l s i,
      own_inv (length med) (mkM med (snd p) rl (fst p) l s i)).
  Proof.
    intros hs (_ & hnd & hin) hk. destruct (emb_vals HD) as [he hg].
    eapply oks_mono; [apply (initial_assignment3_ok (Lt := Lt) HM True hs hin hk)|].
    intros [loss data] (hd & _ & hown) rl l s i. cbn [fst snd] in *. constructor; cbn [m_med m_data]; auto.
    - constructor; auto.
    - apply hown with v; auto.
  Qed.

  Lemma fastmsc_fits med maxiter :
    sizes n (length med) -> medoids n (length med) med -> 3 <= length med ->
    oks (fastmsc (Lt := Lt) M med maxiter) (fun r => fits n D (length med) (r_med r) (r_assi r)).
  Proof.
    intros hs hm hk. assert (hn : 1 <= n) by (destruct hs; lia). assert (hk2 : 2 <= length med) by lia. unfold fastmsc.
    replace (length med =? 1) with false by (symmetry; apply Nat.eqb_neq; lia).
    replace (length med =? 2) with false by (symmetry; apply Nat.eqb_neq; lia).
    pose proof (initial3_own hs hm hk2) as h.
    apply oks_inv in h as ([loss data] & -> & hd). cbn [bind fst snd] in *.
    eapply oks_bind with (P := own_inv (length med)).
    - apply whileM_oks with (I := fun i st => own_inv (length med) st /\ length (m_rl st) = length med).
      + split; [auto|apply repeat_length].
      + intros i st hlt (h1 & hr).
        eapply oks_mono; [apply fastmsc_iteration_own with (k := length med); auto|].
        intros [s|s] (g1 & g2); cbv zeta in *; auto.
      + intros st (h1 & _). exact h1.
    - intros st h. cbn [oks r_med r_assi]. apply own_fits. exact h.
  Qed.

  Lemma pammedsil_swap_fits med maxiter :
    sizes n (length med) -> medoids n (length med) med -> 2 <= length med ->
    oks (pammedsil_swap (Lt := Lt) M med maxiter) (fun r => fits n D (length med) (r_med r) (r_assi r)).
  Proof.
    intros hs hm hk. assert (hn : 1 <= n) by (destruct hs; lia). unfold pammedsil_swap.
    pose proof (initial3_own hs hm hk) as h.
    apply oks_inv in h as ([loss data] & -> & hd). cbn [bind fst snd] in *. unfold pammedsil_optimize.
    replace (length med =? 1) with false by (symmetry; apply Nat.eqb_neq; lia).
    eapply oks_bind with (P := own_inv (length med)).
    - apply whileM_oks with (I := fun i st => own_inv (length med) st); auto.
      intros i st hlt h1. eapply oks_mono; [apply pms_iteration_own with (k := length med); auto|].
      intros [s|s] g; exact g.
    - intros st h. cbn [oks r_med r_assi]. apply own_fits. exact h.
  Qed.
End Any.

(** ** Two medoids: fastermsc and fastmsc, if no two objects are at distance 0 *)
Section Two.
  Context {Nt Lt : Type} `{HO : OrdLaws Nt} `{HNL : NumL Lt} `{HFN : FromN Nt Lt}.
  Variable M : Mat Nt.
  Variable n : nat.
  Variable D : nat -> nat -> Nt.
  Hypothesis HD : diss_matrix M n D.
  Local Notation v := (vals D).
  Hypothesis distinct : forall i j, i < n -> j < n -> i <> j -> (0 < v i j)%Q.
  Let HM : is_matrix M n D := proj1 HD.
  Let Hdg : Dg n D := proj2 (emb_vals HD).

  Lemma obj2_nearest med o a d (x : Lt) : length med = 2 -> inr n med -> o < n -> obj2 D med o a d x -> nearest v o med a.
  Proof.
    intros hl hin ho (h1 & h2 & h3 & h4 & h5). destruct d as [d0 d1]. cbn [fst snd] in *.
    assert (he : forall c d, dat D med o c d -> d = D o (nth c med 0)).
    { intros c d [->|[e ->]]; auto. rewrite <- e. symmetry. apply Hdg. auto. }
    apply he in h2. apply he in h3. subst d0 d1.
    assert (hm : forall c, c < 2 -> nth c med 0 < n) by (intros; apply inr_nth; auto; lia).
    pose proof (proj2 (proj2 HD)) as hok.
    assert (hle : (v o (nth a med 0%nat) <= v o (nth (1 - a) med 0%nat))%Q).
    { assert (ep : (if a =? 0 then D o (nth 0 med 0) else D o (nth 1 med 0)) = D o (nth a med 0))
        by (destruct a as [|[|]]; auto; lia).
      assert (eq : (if a =? 0 then D o (nth 1 med 0) else D o (nth 0 med 0)) = D o (nth (1 - a) med 0))
        by (destruct a as [|[|]]; auto; lia).
      rewrite ep, eq in *. unfold vals.
      destruct (hok o (nth a med 0)) as [k1 k2]; auto.
      destruct (hok o (nth (1 - a) med 0)) as [k3 k4]; [auto|apply hm; lia|].
      destruct h5 as [h5|[h5|[h5|[_ h5]]]].
      - apply nltb_spec in h5; auto. lra.
      - apply neqb_spec in h5; auto. lra.
      - apply Qnot_lt_le. intros c. apply nltb_spec in c; auto. congruence.
      - rewrite h5, vN_zero. exact k4. }
    split; [lia|]. intros c hc. destruct (Nat.eq_dec c a) as [->|]; [lra|]. replace c with (1 - a) by lia. auto.
  Qed.

  Record own2 (st : kst Nt Lt) : Prop := {
    o2_inv : MscK2.f_inv n D st;
    o2_nodup : NoDup (k_med st)
  }.

  Lemma own2_nearest st o : own2 st -> o < n -> nearest v o (k_med st) (nth o (k_assi st) 0).
  Proof.
    intros [[i1 i2 (xs & ht)] _] ho. destruct (tab2_get ht ho) as (a & d & x & ha & hd & hx & hobj).
    rewrite (nth_error_nth _ _ 0 ha). eapply obj2_nearest; eauto.
  Qed.

  Lemma own2_own st c : own2 st -> c < 2 -> nth (nth c (k_med st) 0) (k_assi st) 0 = c.
  Proof.
    intros h hc. pose proof h as [[i1 i2 _] hnd].
    assert (ho : nth c (k_med st) 0 < n) by (apply inr_nth; auto; lia).
    destruct (own2_nearest h ho) as [ha hmin]. set (a := nth (nth c (k_med st) 0) (k_assi st) 0) in *.
    destruct (Nat.eq_dec a c) as [|hne]; [auto|]. exfalso.
    assert (hcl : c < length (k_med st)) by lia. specialize (hmin c hcl).
    assert (hz : (v (nth c (k_med st) 0%nat) (nth c (k_med st) 0%nat) == 0)%Q).
    { apply (proj1 (emb_vals HD)). exact ho. }
    assert (hpos : (0 < v (nth c (k_med st) 0%nat) (nth a (k_med st) 0%nat))%Q).
    { apply distinct; [exact ho|apply inr_nth; auto|]. intros e. apply hne.
      symmetry. apply (proj1 (NoDup_nth (k_med st) 0) hnd); auto. }
    lra.
  Qed.

  Lemma own2_not_in st j : own2 st -> j <> nth (nth j (k_assi st) 0) (k_med st) 0 -> ~ In j (k_med st).
  Proof.
    intros h hne hin. apply nth_In_iff in hin as (c & hc1 & hc2). apply hne. rewrite <- hc2 at 2.
    pose proof (fi_len (o2_inv h)). rewrite (own2_own h) by lia. auto.
  Qed.

  Lemma own2_fits st : own2 st -> fits n D 2 (k_med st) (k_assi st).
  Proof.
    intros h. pose proof h as [[i1 i2 (xs & ht)] hnd]. split; [split; auto|]. split; [apply ht|]. split.
    - intros o ho. apply own2_nearest; auto.
    - intros c hc. apply own2_own; auto.
  Qed.

  Lemma own2_swap st b j loss last swaps iter assi' data' xs' : own2 st -> b < 2 -> j < n -> ~ In j (k_med st) ->
    tab2 n D (set_nth (k_med st) b j) assi' data' xs' -> own2 (mkK (set_nth (k_med st) b j) assi' data' loss last swaps iter).
  Proof.
    intros [[i1 i2 _] hnd] hb hj hni ht. constructor; cbn [k_med].
    - constructor; cbn [k_med k_assi k_data]; eauto using inr_set_nth. rewrite length_set_nth. auto.
    - apply NoDup_set_nth; auto.
  Qed.
  Lemma own2_inc st l s i : own2 st -> own2 (mkK (k_med st) (k_assi st) (k_data st) l (k_last st) s i).
  Proof. intros [[] ?]. constructor; auto. constructor; auto. Qed.

  Lemma k2_cand_own st j : 1 <= n -> j < n -> own2 st ->
    oks (k2_cand M st j) (fun c => own2 (match c with Next s => s | Break s => s end)).
  Proof.
    intros hn hj h. pose proof h as [[i1 i2 (xs & ht)] hnd]. unfold k2_cand.
    destruct (j =? k_last st); [exact h|].
    destruct (tab2_get ht hj) as (a & d & x & ha & hd & hx & hobj).
    rewrite (idx_some _ _ ha). cbn [bind]. destruct hobj as (ha2 & _).
    rewrite idx_nth with (d := 0) by lia. cbn [bind].
    destruct (Nat.eqb_spec j (nth a (k_med st) 0)) as [e|e]; [exact h|].
    assert (hf : oks (find_best_swap_k2 (Lt := Lt) M (k_data st) j) (fun p => snd p < 2)).
    { eapply find_best_swap_k2_shape; eauto. apply ht. }
    apply oks_inv in hf as ([newloss b] & ef & hb). rewrite ef. cbn [bind snd] in *.
    destruct (lleb (k_loss st) newloss); [exact h|].
    pose proof (do_swap_k2_shape HM hn i1 ht hb hj) as hs.
    apply oks_inv in hs as ([[[med' assi'] data'] loss'] & es & -> & xs' & ht' & hr'). rewrite es.
    cbn [bind oks]. apply own2_swap with xs'; auto. apply own2_not_in; auto. rewrite (nth_error_nth _ _ 0 ha). exact e.
  Qed.

  Lemma initial_k2_own med : sizes n 2 -> medoids n 2 med ->
    oks (initial_assignment_k2 M med) (fun p => forall last s i, own2 (mkK med (snd (fst p)) (snd p) (fst (fst p) : Lt) last s i)).
  Proof.
    intros hs (hl & hnd & hin). eapply oks_mono; [apply (initial_k2_shape HM hs hin hl)|].
    intros [[loss assi] data] (xs & ht & _) last s i. cbn [fst snd] in *. constructor; auto. constructor; eauto.
  Qed.

  Lemma fastermsc_k2_fits med maxiter : sizes n 2 -> medoids n 2 med ->
    oks (fastermsc (Lt := Lt) M med maxiter) (fun r => fits n D 2 (r_med r) (r_assi r)).
  Proof.
    intros hs hm. pose proof hm as (hl & _). assert (hn : 1 <= n) by (destruct hs; lia).
    unfold fastermsc. rewrite hl. cbn [Nat.eqb]. unfold fastermsc_k2. rewrite hl. cbn [Nat.eqb assertb bind].
    pose proof (initial_k2_own hs hm) as h.
    apply oks_inv in h as ([[loss assi] data] & -> & h). cbn [bind fst snd] in *. rewrite (len_n HM).
    eapply oks_bind with (P := own2).
    - apply whileM_oks with (I := fun _ => own2); auto.
      intros i st hlt h1. unfold k2_iteration. rewrite (len_n HM).
      eapply oks_bind with (P := own2).
      + apply forM_inv; [apply own2_inc; auto|].
        intros j s hj his. apply in_seq in hj. eapply oks_mono; [apply k2_cand_own; auto; lia|].
        intros [s'|s'] h2; exact h2.
      + intros st' h2. destruct (_ || _); exact h2.
    - intros st h1. cbn [oks r_med r_assi]. apply own2_fits. exact h1.
  Qed.

  (** [0 < 0 + 0] is false *)
  Hypothesis sum_zero : lltb (lzero : Lt) (ladd lzero lzero) = false.

  Definition best2_fresh (st : kst Nt Lt) (best : Lt * option (nat * nat)) : Prop :=
    match snd best with None => True | Some (b, j) => ~ In j (k_med st) end.

  Lemma fastmsc_k2_cand_own st best j : 1 <= n -> j < n -> own2 st -> best2_fresh st best ->
    oks (fastmsc_k2_cand M st best j) (best2_fresh st).
  Proof.
    intros hn hj h hb. pose proof h as [[i1 i2 (xs & ht)] hnd]. unfold fastmsc_k2_cand.
    destruct (tab2_get ht hj) as (a & d & x & ha & hd & hx & hobj).
    rewrite (idx_some _ _ ha). cbn [bind]. destruct hobj as (ha2 & _).
    rewrite idx_nth with (d := 0) by lia. cbn [bind].
    destruct (Nat.eqb_spec j (nth a (k_med st) 0)) as [e|e]; [exact hb|].
    assert (hf : oks (find_best_swap_k2 (Lt := Lt) M (k_data st) j) (fun p => snd p < 2)).
    { eapply find_best_swap_k2_shape; eauto. apply ht. }
    apply oks_inv in hf as ([newloss b] & ef & hbb). rewrite ef. cbn [bind snd oks] in *.
    assert (hni : ~ In j (k_med st)) by (apply own2_not_in; auto; rewrite (nth_error_nth _ _ 0 ha); exact e).
    unfold best2_fresh in *. destruct (snd best) as [[b' j']|] eqn:es; cbn [snd]; auto.
    destruct (lltb newloss (fst best)); cbn [snd]; auto. rewrite es. auto.
  Qed.

  Lemma fastmsc_k2_iteration_own st : 2 <= n -> k_inv n D st -> NoDup (k_med st) ->
    oks (fastmsc_k2_iteration M st) (fun c => match c with
      | Next s => k_inv n D s /\ NoDup (k_med s) | Break s => own2 s end).
  Proof.
    intros hn hi hnd.
    assert (zz : nis_zero (nzero : Nt) = true) by (apply nis_zero_spec; [apply okN_zero|apply vN_zero]).
    unfold fastmsc_k2_iteration.
    set (st1 := mkK (k_med st) (k_assi st) (k_data st) (k_loss st) (k_last st) (k_swaps st) (S (k_iter st))).
    assert (hi1 : k_inv n D st1) by (apply k_inv_inc; auto).
    assert (ho1 : own2 st1) by (constructor; [apply k_f_inv; exact hi1|exact hnd]).
    rewrite (len_n HM).
    eapply oks_bind with (P := fun best => best2_shape n st1 n best /\ best2_fresh st1 best).
    - apply foldM_seq with (I := fun t best => best2_shape n st1 t best /\ best2_fresh st1 best).
      + split; [split; auto; intros; lia|exact I].
      + intros j best hj [hb1 hb2]. apply oks_and; [eapply fastmsc_k2_cand_shape; eauto|apply fastmsc_k2_cand_own; auto; lia].
    - intros best [hb hf]. destruct (lltb (fst best) (k_loss st1)) eqn:e; cbn [negb]; [|exact ho1].
      unfold best2_shape in hb. unfold best2_fresh in hf. destruct (snd best) as [[b j]|] eqn:es.
      + destruct hb as [hb hj]. pose proof hi1 as [i1 i2 (xs & ht & hr)].
        assert (hn1 : 1 <= n) by lia.
        pose proof (do_swap_k2_shape HM hn1 i1 ht hb hj) as hs.
        apply oks_inv in hs as ([[[med' assi'] data'] loss'] & es' & -> & xs' & ht' & hr'). rewrite es'.
        cbn [bind]. destruct (lltb loss' (k_loss st1)); cbn [negb oks].
        * cbn [k_med]. split; [|apply NoDup_set_nth; auto].
          constructor; cbn [k_med k_assi k_data k_loss]; eauto using inr_set_nth. rewrite length_set_nth. auto.
        * apply own2_swap with xs'; auto.
      + destruct hb as [hb1 hb2]. rewrite hb1, (all_skipped_loss Hdg zz hn hi1 hb2) in e. congruence.
  Qed.

  Lemma fastmsc_k2_fits med maxiter : sizes n 2 -> medoids n 2 med ->
    oks (fastmsc (Lt := Lt) M med maxiter) (fun r => fits n D 2 (r_med r) (r_assi r)).
  Proof.
    intros hs (hl & hnd & hin). assert (hn : 2 <= n) by (destruct hs; lia).
    unfold fastmsc. rewrite hl. cbn [Nat.eqb]. unfold fastmsc_k2. rewrite hl. cbn [Nat.eqb assertb bind].
    pose proof (initial_k2_shape HM hs hin hl) as h.
    apply oks_inv in h as ([[loss assi] data] & -> & xs & ht & hr). cbn [bind fst snd] in *.
    eapply oks_bind with (P := own2).
    - apply whileM_oks with (I := fun _ st => k_inv n D st /\ NoDup (k_med st)).
      + split; [constructor; cbn; eauto|exact hnd].
      + intros i st hlt [h1 h2]. eapply oks_mono; [apply fastmsc_k2_iteration_own; auto|]. intros [s|s] g; exact g.
      + intros st [h1 h2]. constructor; [apply k_f_inv; exact h1|exact h2].
    - intros st h1. cbn [oks r_med r_assi]. apply own2_fits. exact h1.
  Qed.
End Two.
