(** DynExact.v -- dynmsc with exact arithmetic. *)
From Coq Require Import ZArith QArith Lqa Lia Permutation.
From Verif Require Import Base Num M_Mat M_Util M_Fasterpam M_Silhouette M_Msc M_Dynmsc Hoare
  Spec SpecFacts Laws PamShape PamExact LocalSearch ChooseFacts FpFacts PamFacts PamMain SortFacts SilFacts
  MscShape MscExact MscFacts MscK2 MscMain DynShape DynFacts.
Set Implicit Arguments.
Open Scope nat_scope.

(** ** the medoid silhouette does not depend on the order of the medoids *)
Lemma two_least_ex l : 2 <= length l -> two_least l (nth 0 (sortQ l) 0%Q) (nth 1 (sortQ l) 0%Q).
Proof.
  intros h. pose proof (sortQ_perm l) as hp. pose proof (sortQ_sorted l) as hs.
  pose proof (Permutation_length hp) as hl.
  destruct (sortQ l) as [|p [|q r]]; simpl in hl; try lia.
  exists r. destruct hs as (h1 & h2 & _). cbn [nth]. split; [auto|]. split; [apply h1; simpl; auto|auto].
Qed.

Lemma near_ratio_perm v o med med' : 2 <= length med -> Permutation med med' ->
  (near_ratio v o med == near_ratio v o med')%Q.
Proof.
  intros hk hp. unfold near_ratio.
  assert (h : 2 <= length (map (v o) med)) by (rewrite map_length; auto).
  apply two_least_ex in h. destruct h as (rest & h1 & h2 & h3).
  assert (h' : two_least (map (v o) med') (nth 0 (sortQ (map (v o) med)) 0%Q) (nth 1 (sortQ (map (v o) med)) 0%Q)).
  { exists rest. split; [|auto]. eapply perm_trans; [apply Permutation_sym, Permutation_map, hp|auto]. }
  apply two_least_sort in h' as [-> ->]. reflexivity.
Qed.

Lemma rtot_perm v n med med' : 2 <= length med -> Permutation med med' ->
  (rtot v n med == rtot v n med')%Q.
Proof. intros hk hp. apply sumQ_ext. intros. apply near_ratio_perm; auto. Qed.

Lemma med_sil_perm v n med med' : 2 <= length med -> Permutation med med' ->
  (med_sil v n med == med_sil v n med')%Q.
Proof. intros hk hp. rewrite !med_sil_rtot, (rtot_perm _ _ hk hp). reflexivity. Qed.

(** ** removing one medoid *)
Lemma set_nth_perm (m : list nat) b z : b < length m ->
  Permutation (z :: m) (nth b m 0 :: set_nth m b z).
Proof.
  revert b. induction m as [|x m IH]; intros b hb; simpl in hb; [lia|]. destruct b as [|b]; cbn [nth set_nth].
  - apply perm_swap.
  - eapply perm_trans; [apply perm_swap|]. eapply perm_trans; [|apply perm_swap].
    constructor. apply IH. lia.
Qed.

Lemma removed_perm med b : b < length med -> Permutation med (nth b med 0 :: removed med b).
Proof.
  intros hb. destruct (@exists_last _ med) as (m & z & e); [intros ->; simpl in hb; lia|]. subst med.
  unfold removed. rewrite app_length in *. cbn [length] in *. replace (length m + 1 - 1) with (length m) by lia.
  rewrite app_nth2 with (n := length m), Nat.sub_diag by lia. cbn [nth].
  destruct (Nat.eq_dec b (length m)) as [->|hne].
  - rewrite app_nth2, Nat.sub_diag by lia. cbn [nth].
    assert (e : set_nth (m ++ [z]) (length m) z = m ++ [z]).
    { clear hb. induction m as [|x m IH]; cbn [length set_nth app]; [auto|]. f_equal. auto. }
    rewrite e.
    rewrite firstn_app, Nat.sub_diag, firstn_all, app_nil_r. apply Permutation_sym, Permutation_cons_append.
  - rewrite app_nth1 by lia.
    assert (e : set_nth (m ++ [z]) b z = set_nth m b z ++ [z]).
    { assert (hb' : b < length m) by lia. clear -hb'. revert b hb'. induction m as [|x m IH]; intros b h; simpl in h; [lia|].
      destruct b; cbn [set_nth app]; [auto|]. f_equal. apply IH. lia. }
    rewrite e, <- (length_set_nth m b z), firstn_app, Nat.sub_diag, firstn_all, app_nil_r.
    eapply perm_trans; [apply Permutation_sym, Permutation_cons_append|]. apply set_nth_perm. lia.
Qed.

Lemma removed_drop med b : b < length med -> drop_one med (removed med b).
Proof. intros hb. exists (nth b med 0). apply removed_perm. auto. Qed.

Lemma drop_removed med med' : drop_one med med' ->
  exists c, c < length med /\ Permutation (removed med c) med'.
Proof.
  intros (x & hp). assert (hx : In x med) by (apply (Permutation_in _ (Permutation_sym hp)); simpl; auto).
  apply (In_nth _ _ 0) in hx as (c & hc & <-). exists c. split; [auto|].
  apply Permutation_cons_inv with (a := nth c med 0).
  eapply perm_trans; [apply Permutation_sym, removed_perm|]; auto.
Qed.

Lemma near_ratio_removed v o med a b c s :
  a < length med -> b < length med -> c < length med -> a <> b -> c <> a -> c <> b ->
  two_min v med o (length med) a b -> third_min v med o (length med) a b c -> s < length med ->
  let x := v o (nth a med 0%nat) in let y := v o (nth b med 0%nat) in let z := v o (nth c med 0%nat) in
  (near_ratio v o (removed med s) == if s =? a then y / z else if s =? b then x / z else x / y)%Q.
Proof.
  intros ha hb hc hab hca hcb [m1 m2] m3 hs x y z.
  set (l := length med - 1).
  assert (T : forall p r, p < length med -> r < length med -> p <> r -> p <> s -> r <> s ->
    (v o (nth p med 0%nat) <= v o (nth r med 0%nat))%Q ->
    (forall i, i < length med -> i <> s -> i <> p -> i <> r -> (v o (nth r med 0%nat) <= v o (nth i med 0%nat))%Q) ->
    (near_ratio v o (removed med s) == v o (nth p med 0%nat) / v o (nth r med 0%nat))%Q).
  { intros p r hp hr hpr hps hrs h1 h2.
    destruct (@newslot_ok l s p) as [p1 p2]; [unfold l; lia|unfold l; lia|auto|].
    destruct (@newslot_ok l s r) as [r1 r2]; [unfold l; lia|unfold l; lia|auto|].
    rewrite <- (@nth_new med s p), <- (@nth_new med s r) by auto. fold l.
    apply near_ratio_pos.
    - rewrite length_removed. auto.
    - rewrite length_removed. auto.
    - intros e. apply hpr. rewrite <- p2, <- r2, e. auto.
    - unfold l. rewrite !nth_new by auto. auto.
    - rewrite length_removed. intros i hi n1 n2.
      destruct (@oldslot_ok l s i) as (q1 & q2 & q3); [unfold l; lia|auto|].
      unfold l. rewrite nth_new by auto. fold l. rewrite nth_removed by auto. fold l.
      apply h2; auto; [unfold l in *; lia| |]; intros e; [apply n1|apply n2]; rewrite <- q3, e; auto. }
  destruct (Nat.eqb_spec s a) as [->|na]; [|destruct (Nat.eqb_spec s b) as [->|nb]].
  - apply T; auto.
  - apply T; auto.
  - apply T; auto.
Qed.

Section Exact.
  Context {Nt Lt : Type} `{HLL : LossLaws Nt Lt} `{HAL : !AddLaws Nt} `{HDL : !DivLaws Nt Lt}.
  Variable M : Mat Nt.
  Variable n : nat.
  Variable D : nat -> nat -> Nt.
  Hypothesis HD : diss_matrix M n D.
  Local Notation v := (vals D).

  Lemma removal_delta med data c :
    inr n med -> 3 <= length med -> c < length med -> data3_ok n D True med data ->
    (sumQ (rem_of3 c) data == rtot v n med - rtot v n (removed med c))%Q.
  Proof.
    intros hin hk hc [hl hd]. unfold rtot. rewrite !(@sumQ_enum3 _ n data) by auto.
    rewrite <- (map_snd_enum data) at 1. rewrite sumQ_map.
    rewrite <- sumQ_minus. apply sumQ_ext.
    intros [o r] h. apply In_enum in h. cbn [fst snd].
    destruct (rec3_x3 HD hk (hd o r h)) as (a & b & c0 & hx & h8 & h10 & h11 & h9 & m3).
    destruct (rec_x2_ratio hx) as [-> _].
    destruct hx as (h1 & h2 & h3 & h4 & h5 & h6 & h7 & hm).
    rewrite (near_ratio_removed h1 h2 h8 h3 h10 h11 hm m3 hc). cbv zeta.
    unfold rem_of3. rewrite h4, h5, h6, h7, h9. cbn [as_usize].
    rewrite (Nat.eqb_sym a c), (Nat.eqb_sym b c). fold (v o (nth a med 0)) (v o (nth b med 0)) (v o (nth c0 med 0)).
    destruct (Nat.eqb_spec c a) as [ea|na]; destruct (Nat.eqb_spec c b) as [eb|nb]; try congruence; lra.
  Qed.

  Lemma vL_ord : ord_ok (fun _ => True) (fun x y : Lt => (vL x <= vL y)%Q).
  Proof.
    split; [intros; lra|]. split; [intros; lra|]. split.
    - intros x y _ _ h. apply lltb_spec in h. lra.
    - intros x y _ _ h. apply Qnot_lt_le. intros h'. apply lltb_spec in h'. congruence.
  Qed.

  Lemma min_removal_ok (rl : list Lt) b : snd (min_removal rl) = Some b ->
    b < length rl /\ forall c, c < length rl -> (vL (nth b rl lzero) <= vL (nth c rl lzero))%Q.
  Proof.
    intros hb. apply (@min_removal_least _ _ (fun _ => True) (fun x y => (vL x <= vL y)%Q)) with (2 := fun _ _ => I) (3 := hb).
    apply vL_ord.
  Qed.

  (** the medoid which is removed is the one whose loss costs most *)
  Lemma removal_worst k (s : mst Nt Lt) b : 1 <= n -> 3 <= k -> m_good n D k s ->
    snd (min_removal (m_rl s)) = Some b ->
    forall med', drop_one (m_med s) med' -> (med_sil v n (removed (m_med s) b) <= med_sil v n med')%Q.
  Proof.
    intros hn hk [[i1 i2 i3 i4] g2 g3 g4 g5] hb med' hd. apply min_removal_ok in hb as [b1 b2].
    apply drop_removed in hd as (c & hc & hp).
    assert (hl : 2 <= length (removed (m_med s) c)) by (rewrite length_removed; lia).
    rewrite <- (med_sil_perm v n hl hp). apply rtot_le; auto.
    specialize (b2 c ltac:(lia)). pose proof (g4 b) as e1. pose proof (g4 c) as e2. rewrite e1, e2 in b2.
    assert (hb : b < length (m_med s)) by lia. assert (hk' : 3 <= length (m_med s)) by lia.
    rewrite (removal_delta i2 hk' hb i3), (removal_delta i2 hk' hc i3) in b2. lra.
  Qed.

  (** the sum of the ratios after a removal *)
  Lemma ratio_sum_rec2 med (data : list (Reco Nt)) (loss : Lt) : inr n med -> length data = n ->
    (forall o r, nth_error data o = Some r -> rec2 n D True (length med) med o r) ->
    ratio_sum data = Some loss -> (vL loss == rtot v n med)%Q.
  Proof.
    intros hin hl hd hs. unfold ratio_sum in hs. apply reduce_sum in hs. rewrite hs.
    unfold rtot. rewrite (@sumQ_enum3 _ n data) by auto. rewrite sumQ_map.
    rewrite <- (map_snd_enum data) at 1. rewrite sumQ_map. apply sumQ_ext.
    intros [o r] h. apply In_enum in h. simpl.
    assert (ho : o < n) by (rewrite <- hl; apply nth_error_lt with (1 := h)).
    destruct (hd o r h) as (a & b & h1 & h2 & h3 & [_ h4] & [_ h5] & h6).
    pose proof (emb_vals HD) as [he hg]. destruct (h6 I hg _ he) as [m1 m2].
    unfold rec_ratio. rewrite h4, h5 by auto.
    rewrite (vL_ratio_D HD); auto using inr_nth. symmetry. apply near_ratio_pos; auto.
  Qed.

  (** with a zero diagonal the medoid silhouette is positive *)
  Lemma med_sil_pos med : 1 <= n -> inr n med -> 2 <= length med -> (0 < med_sil v n med)%Q.
  Proof.
    intros hn hin hk. rewrite med_sil_rtot.
    assert (hz : (0 < inject_Z (Z.of_nat n))%Q) by (change 0%Q with (inject_Z 0); rewrite <- Zlt_Qlt; lia).
    destruct med as [|m med']; [simpl in hk; lia|]. set (med := m :: med') in *.
    assert (hm : m < n) by (apply hin; simpl; auto).
    assert (h : forall t, t <= n -> (sumQ (fun o => near_ratio v o med) (seq 0 t) <=
      inject_Z (Z.of_nat t) - (if m <? t then 1 else 0))%Q).
    { induction t as [|t IH]; intros ht; [change (m <? 0) with false; change (inject_Z (Z.of_nat 0)) with 0%Q; cbn [seq sumQ fold_right]; lra|].
      rewrite sumQ_seq_S. specialize (IH ltac:(lia)).
      replace (Z.of_nat (S t)) with (Z.of_nat t + 1)%Z by lia. rewrite inject_Z_plus. change (inject_Z 1) with 1%Q.
      assert (hr : (near_ratio v t med <= 1)%Q).
      { apply near_ratio_range; auto. intros x hx. apply (diss_vals HD); auto; lia. }
      destruct (Nat.ltb_spec m t) as [h1|h1]; destruct (Nat.ltb_spec m (S t)) as [h2|h2]; try lia.
      - lra.
      - assert (t = m) as -> by lia. rewrite (near_ratio_self HD hin hk hm) by (simpl; auto). lra.
      - lra. }
    specialize (h n (le_n n)). apply Nat.ltb_lt in hm. rewrite hm in h.
    fold (rtot v n med) in h.
    assert (rtot v n med / inject_Z (Z.of_nat n) < 1)%Q; [|lra].
    apply Qlt_shift_div_r; auto. lra.
  Qed.

  (** ** the search with [c] medoids *)
  Section Med.
    Variable med0 : list nat.
    Variable maxiter : nat.
    Hypothesis hs : sizes n (length med0).
    Hypothesis hm : medoids n (length med0) med0.
    Local Notation k0 := (length med0).
    Let HM : is_matrix M n D := proj1 HD.
    Let hin : inr n med0 := proj2 (proj2 hm).
    Let hnd : NoDup med0 := proj1 (proj2 hm).
    Let Hemb : Emb n D v := proj1 (emb_vals HD).
    Let Hdg : Dg n D := proj2 (emb_vals HD).
    Local Notation rounds := (rounds (Lt := Lt) M n med0 maxiter).

    Record stage_good (c : nat) (s : mst Nt Lt) : Prop := {
      gg_good : m_good n D c s;
      gg_value : (vL (to_silhouette M (m_loss s)) == med_sil v n (m_med s))%Q;
      gg_near : forall o, o < n -> nearest v o (m_med s) (nth o (assignment3_of (m_data s)) 0);
      gg_own : forall c', c' < c -> nth (nth c' (m_med s) 0) (assignment3_of (m_data s)) 0 = c';
      gg_opt : n ^ c < maxiter -> sil_optimal v n (m_med s)
    }.

    Lemma rounds_le c s : 3 <= k0 -> rounds c s -> c <= k0.
    Proof. intros h3 hr. apply (sg_le (rounds_stage HM hs hin h3 hr)). Qed.

    Lemma rounds_shape c s : 3 <= k0 -> rounds c s ->
      medoids n c (m_med s) /\ length (assignment3_of (m_data s)) = n /\
      (forall o, o < n -> nth o (assignment3_of (m_data s)) 0 < c) /\
      (forall c', c' < c -> nth (nth c' (m_med s) 0) (assignment3_of (m_data s)) 0 = c').
    Proof.
      intros h3 hr. pose proof (rounds_stage HM hs hin h3 hr) as hst.
      destruct (sg_inv hst) as [i1 i2 i3 i4]. destruct (assignment3_shape i1 i3) as [a1 a2].
      split; [split; [auto|split; auto]|]. { apply (sg_own hst Hdg Hemb hnd). }
      split; [auto|]. split; [intros o ho; apply a2, nth_In; lia|].
      intros c' hc'. destruct (sg_own hst Hdg Hemb hnd) as [_ g2].
      assert (hcn : nth c' (m_med s) 0 < n) by (apply inr_nth; auto; lia).
      destruct (nth_error_ex (m_data s) (i := nth c' (m_med s) 0)) as [r hr']; [destruct i3; lia|].
      rewrite nth_error_nth with (x := as_usize (di (near3 r))).
      - rewrite (g2 _ r hr' c'); auto. lia.
      - unfold assignment3_of. rewrite nth_error_map, hr'. auto.
    Qed.

    Lemma rounds_good c s : 3 <= k0 -> 3 <= c -> rounds c s -> c = k0 \/ k0 <= 4 -> stage_good c s.
    Proof.
      intros h3 hc hr hg. assert (hn : 1 <= n) by (destruct hs; lia).
      pose proof (rounds_stage HM hs hin h3 hr) as hst.
      destruct (sg_start hst) as (s0 & hs0 & e).
      assert (hg0 : m_good n D c s0).
      { destruct hs0 as [[i1 i2 i3 i4] (rl & l1 & l2) h4 h5 h6 h7 h8].
        destruct (h7 v Hdg Hemb hnd) as [o1 o2].
        assert (i3' : data3_ok n D True (m_med s0) (m_data s0)) by (apply data3_weaken with (2 := i3); auto).
        constructor; auto.
        - constructor; auto.
        - assert (hl : length rl = length (m_med s0)) by lia. assert (hk' : 3 <= length (m_med s0)) by lia.
          pose proof (update_removal_loss3_ok HD rl i2 hk' i3' hl) as hu.
          apply oks_elim with (2 := l2) in hu. apply hu.
        - apply (ratio_sum_rtot HD i2 i3' h8). }
      pose proof hs0 as [_ _ q1 q2 q3 _ _].
      pose proof (msc_run_ok HD maxiter hn hc (@msc_measure_ok _ _ _ n D c) hg0 q2 q3 q1) as hrun.
      apply oks_elim with (2 := e) in hrun.
      destruct hrun as [r1 r2 r3 r4 r5 r6 r7 r8 r9].
      pose proof r1 as [[i1 i2 i3 i4] g2 g3 g4 g5].
      destruct (assi3_facts HD i2 i3 g2) as (a1 & a2 & a3).
      constructor; auto.
      - apply to_silhouette_ok; auto. rewrite i1. pose proof (sg_le hst). unfold sizes in *.
        repeat split; try tauto; try lia.
      - intros c' hc'. apply a3. lia.
      - intros hlt b j hb hj hni. apply rtot_le; auto. apply r8; auto; [|apply in_seq; lia].
        assert (hmb : msc_measure n D c (m_med s0) < n ^ c).
        { apply msc_measure_bound. destruct hg0 as [[? ? _ _] _ ? _ _]. split; auto. }
        lia.
    Qed.

    (** the result for two or more medoids *)
    Record dyn_good (mk : nat) (r : dyn_result Lt) : Prop := {
      dg_len : length (d_losses r) = k0 - mk + 1;
      dg_max : forall x, In x (d_losses r) -> (vL x <= vL (r_loss (d_res r)))%Q;
      dg_k : mk <= length (r_med (d_res r)) /\ 2 <= length (r_med (d_res r)) <= k0;
      dg_med : medoids n (length (r_med (d_res r))) (r_med (d_res r));
      dg_nth : nth (length (r_med (d_res r)) - mk) (d_losses r) lzero = r_loss (d_res r);
      dg_assi : length (r_assi (d_res r)) = n;
      dg_assi_lt : forall o, o < n -> nth o (r_assi (d_res r)) 0 < length (r_med (d_res r));
      dg_pos : (0 < vL (r_loss (d_res r)))%Q;
      dg_iter : r_iter (d_res r) <= (k0 - 1) * maxiter;
      dg_swaps : r_swaps (d_res r) <= n * r_iter (d_res r);
      dg_own : 3 <= length (r_med (d_res r)) -> own_clusters (d_res r);
      dg_value : length (r_med (d_res r)) = k0 \/ length (r_med (d_res r)) = 2 \/ k0 <= 4 ->
        (vL (r_loss (d_res r)) == med_sil v n (r_med (d_res r)))%Q /\
        (forall o, o < n -> nearest v o (r_med (d_res r)) (nth o (r_assi (d_res r)) 0)) /\
        (n ^ length (r_med (d_res r)) < maxiter -> sil_optimal v n (r_med (d_res r)))
    }.

    Lemma two_medoids mk med2 : 2 <= k0 -> 1 <= mk <= k0 -> two (Lt := Lt) M n med0 maxiter med2 ->
      length med2 = 2 /\ medoids n 2 med2 /\ sizes n 2.
    Proof.
      intros hk hmk ht. destruct (two_facts HM hs hin hk hmk ht) as (t1 & t2 & t3).
      split; [auto|]. split; [split; [auto|split; [|auto]]; eauto|]. apply (sizes_two med0 hs hk hmk).
    Qed.

    Lemma k2_good med2 (r2 : pam_result Lt) : length med2 = 2 -> medoids n 2 med2 -> sizes n 2 ->
      fastermsc_k2 M med2 maxiter = Ok r2 ->
      msc_summary n D med2 maxiter r2 /\ r_swaps r2 < n ^ 2.
    Proof.
      intros hl hm2 hs2 e.
      assert (hs2' : sizes n (length med2)) by (rewrite hl; auto).
      assert (hm2' : medoids n (length med2) med2) by (rewrite hl; auto).
      assert (hl' : 2 <= length med2) by lia.
      destruct (fastermsc_all (Lt := Lt) HD maxiter hs2' hm2' hl') as (r & e' & h1 & _ & h2 & _).
      unfold fastermsc in e'. rewrite hl in e'. cbn [Nat.eqb] in e'. rewrite hl in h2.
      rewrite e in e'. injection e' as <-. auto.
    Qed.

    Lemma dynmsc_ok mink : 2 <= k0 ->
      exists r, dynmsc M med0 mink maxiter = Ok r /\
        dyn_facts M n med0 maxiter (Nat.min (Nat.max mink 1) k0) r /\
        dyn_good (Nat.min (Nat.max mink 1) k0) r.
    Proof.
      intros hk. pose proof (dynmsc_facts (Lt := Lt) HM maxiter mink hs hin hk) as h.
      apply oks_inv in h as (r & e & hf). exists r. split; [auto|]. split; [auto|].
      set (mk := Nat.min (Nat.max mink 1) k0) in *. assert (hmk : 1 <= mk <= k0) by (unfold mk; lia). clearbody mk.
      assert (hn : 1 <= n) by (destruct hs; lia).
      destruct (df_ord hf vL_ord) as (_ & o1 & o2); auto.
      assert (hpos : (0 < vL (r_loss (d_res r)))%Q).
      { destruct (df_first hf) as (p & ep & hp).
        destruct (fastermsc_all (Lt := Lt) HD maxiter hs hm hk) as (p' & ep' & hsum & _).
        rewrite ep in ep'. injection ep' as <-.
        assert (hle : (vL (r_loss p) <= vL (r_loss (d_res r)))%Q).
        { apply o2. rewrite <- hp. apply nth_In. rewrite (df_len hf). lia. }
        rewrite (ms_value hsum) in hle.
        destruct (ms_medoids hsum) as (l1 & _ & l2).
        pose proof (@med_sil_pos (r_med p) hn l2 ltac:(lia)). lra. }
      destruct (df_best hf) as [(b1 & _)|[(c & s & c1 & c2 & c3 & c4 & c5 & c6 & c7)|
                                (med2 & r2 & c1 & c2 & c3 & c4 & c5 & c6 & c7)]].
      - exfalso. rewrite b1, vL_zero in hpos. lra.
      - assert (h3 : 3 <= k0) by lia. destruct (rounds_shape h3 c3) as (m1 & m2 & m3 & m9).
        pose proof m1 as (m4 & _).
        constructor; rewrite ?c7, ?m4, ?c6; auto; try lia; try apply (df_len hf); try apply (df_iter hf); try apply (df_swaps hf).
        + intros _ x hx. rewrite c6, c7 in *. apply m9. lia.
        + intros hc. destruct (rounds_good h3 (proj1 c2) c3) as [g1 g2 g3 g4 g5]; [lia|].
          rewrite c5. split; [auto|]. split; auto.
      - destruct (two_medoids hk hmk c2) as (t1 & t2 & t3).
        destruct (k2_good t1 t2 t3 c3) as [q1 q2].
        destruct (ms_medoids q1) as (m4 & m5 & m6). rewrite t1 in m4.
        constructor; rewrite ?c7, ?m4, ?c6; auto; try lia; try apply (df_len hf); try apply (df_iter hf); try apply (df_swaps hf).
        + split; auto.
        + apply (ms_assi_len q1).
        + intros o ho. rewrite <- m4. apply (ms_nearest q1 ho).
        + intros _. rewrite c5. split; [apply (ms_value q1)|]. split; [apply (ms_nearest q1)|].
          intros hlt. apply (ms_opt q1). left. pose proof (ms_iterswap q1). lia.
    Qed.

    (** ** which medoid is removed *)
    Lemma first_removal mink : 3 <= k0 -> maxiter = 0 -> Nat.max mink 1 < k0 ->
      exists r med', dynmsc M med0 mink maxiter = Ok r /\ drop_one med0 med' /\
        (vL (nth (k0 - 1 - Nat.max mink 1) (d_losses r) lzero) == med_sil v n med')%Q /\
        forall med'', drop_one med0 med'' -> (med_sil v n med' <= med_sil v n med'')%Q.
    Proof.
      intros h3 hz hlt. assert (hz' : maxiter <= 0) by lia. clear hz. assert (hk : 2 <= k0) by lia. assert (hn : 1 <= n) by (destruct hs; lia).
      destruct (dynmsc_ok mink hk) as (r & e & hf & _).
      replace (Nat.min (Nat.max mink 1) k0) with (Nat.max mink 1) in hf by lia.
      set (mk := Nat.max mink 1) in *. assert (hmk : 1 <= mk <= k0) by (unfold mk; lia). clearbody mk.
      assert (C : forall s b med' data' loss', rounds k0 s -> snd (min_removal (m_rl s)) = Some b ->
        remove_med M (m_med s) (m_data s) b = Ok (med', data', loss') ->
        m_med s = med0 /\ med' = removed med0 b /\ (vL loss' == rtot v n med')%Q /\ b < k0 /\
        forall med'', drop_one med0 med'' -> (med_sil v n med' <= med_sil v n med'')%Q).
      { intros s b med' data' loss' hr hb hrm.
        assert (hmed : m_med s = med0).
        { inversion hr as [loss data rl s1 e1 e2 e3|c s1 b1 m1 d1 l1 rl1 s1' hr' _ _ _ _ _ e1 e2]; subst.
          - replace maxiter with 0 in e3 by lia. cbn in e3. injection e3 as <-. auto.
          - pose proof (rounds_le h3 hr'). lia. }
        destruct (rounds_good h3 h3 hr (or_introl eq_refl)) as [g1 _ _ _ _].
        pose proof (removal_worst hn h3 g1 hb) as hw.
        destruct (min_removal_ok _ hb) as [hb1 _].
        pose proof g1 as [[i1 i2 i3 i4] _ _ _ _]. rewrite i4 in hb1.
        assert (hb2 : b < length (m_med s)) by lia. assert (h3' : 3 <= length (m_med s)) by lia.
        pose proof (remove_med_ok (Lt := Lt) HM hn i2 hb2 h3' i3) as ho.
        apply oks_elim with (2 := hrm) in ho. destruct ho as (-> & o2 & o3 & o4 & _).
        rewrite hmed in *. split; [auto|]. split; [auto|]. split; [|split; [auto|exact hw]].
        apply (@ratio_sum_rec2 (removed med0 b) data'); auto.
        - apply removed_inr; auto.
        - intros o q hq. rewrite length_removed. auto. }
      destruct (Nat.eq_dec k0 3) as [e3|e3].
      - destruct (df_two hf) as (med2 & r2 & t1 & t2 & t3); [lia|].
        destruct (two_medoids hk hmk t1) as (q1 & q2 & q3).
        destruct t1 as [[? _]|(_ & s & b & data' & loss' & f1 & f2 & f3)]; [lia|].
        rewrite <- e3 in f1. destruct (C _ _ _ _ _ f1 f2 f3) as (p1 & p2 & p3 & p4 & p5).
        exists r, med2. split; [auto|]. split; [subst med2; apply removed_drop; auto|]. split; [|auto].
        replace (k0 - 1 - mk) with (2 - mk) by lia. rewrite t3.
        destruct (k2_good q1 q2 q3 t2) as [ms _]. rewrite (ms_value ms).
        destruct (k2_returns (Lt := Lt) HM med0 maxiter hs hk hmk q1 (proj2 (proj2 q2))) as (r2' & x1 & _ & x2 & x3).
        rewrite t2 in x1. injection x1 as <-. rewrite (ms_same ms); [reflexivity|]. nia.
      - destruct (df_three hf (c := k0 - 1)) as (s' & hr & hl); [lia|lia|].
        inversion hr as [loss data rl s1 e1 e2 e4 e5|c s1 b1 m1 d1 l1 rl1 s1' hr' _ f1 f2 f3 f4 e1 e2]; subst; [lia|].
        replace (S (k0 - 1)) with k0 in hr' by lia.
        destruct (C _ _ _ _ _ hr' f1 f2) as (p1 & p2 & p3 & p4 & p5).
        replace maxiter with 0 in f4 by lia. cbn in f4. injection f4 as <-. cbn [m_loss] in hl.
        exists r, m1. split; [auto|]. split; [subst m1; apply removed_drop; auto|]. split; [|auto].
        rewrite hl. apply to_silhouette_ok; auto. subst m1. rewrite length_removed. unfold sizes in *.
        repeat split; try tauto; lia.
    Qed.
  End Med.
End Exact.
