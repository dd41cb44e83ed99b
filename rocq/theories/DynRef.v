(** DynRef.v -- with at most four initial medoids dynmsc is the reference algorithm of ReferenceDyn.v. *)
From Coq Require Import ZArith QArith Lqa Lia.
From Verif Require Import Base Num M_Mat M_Util M_Fasterpam M_Silhouette M_Msc M_Dynmsc Hoare
  Spec SpecFacts Laws PamShape ChooseFacts FpFacts PamFacts PamMain MscShape MscExact MscFacts MscK2 MscMain
  DynShape DynFacts DynExact Reference LocalSearch RefFacts ReferenceDyn.
Set Implicit Arguments.
Open Scope nat_scope.

Lemma drop_at_removed med b : b < length med -> drop_at med b = removed med b.
Proof.
  intros h. unfold drop_at, removed. f_equal.
  assert (e : last med 0 = nth (length med - 1) med 0).
  { clear. induction med as [|x l IH]; [auto|]. destruct l as [|y l]; [auto|].
    change (last (x :: y :: l) 0) with (last (y :: l) 0). rewrite IH. simpl. rewrite Nat.sub_0_r. auto. }
  rewrite e. generalize (nth (length med - 1) med 0). clear e. intros x. unfold swap. revert b h.
  induction med as [|y l IH]; intros [|b] h; simpl in *; try lia; [auto|]. f_equal. apply IH. lia.
Qed.

Lemma worst_drop_at v n med b : b < length med ->
  (forall c, c < length med -> (med_sil v n (removed med b) <= med_sil v n (removed med c))%Q) ->
  (forall c, c < b -> (med_sil v n (removed med b) < med_sil v n (removed med c))%Q) ->
  worst_drop v n med = removed med b.
Proof.
  intros hb h1 h2. unfold worst_drop.
  destruct (@first_best_map nat (list nat) (fun x => x < length med) (drop_at med)
    (fun x y => Qlt_bool (med_sil v n (drop_at med x)) (med_sil v n (drop_at med y)))
    (fun a b => sil_better v n b a) (seq 1 (length med - 1)) 0) as [e _].
  - intros y z _ _. reflexivity.
  - lia.
  - intros y hy. apply in_seq in hy. lia.
  - rewrite e. rewrite (@first_index _ (fun x => med_sil v n (drop_at med x)) (length med) b); auto.
    + apply drop_at_removed; auto.
    + intros y hy. rewrite !drop_at_removed by lia. auto.
    + intros y hy. rewrite !drop_at_removed by lia. auto.
Qed.

Lemma best_run_snoc v n L r : L <> [] ->
  best_run v n (L ++ [r]) =
  (if sil_better v n (fst (fst r)) (best_run v n L) then fst (fst r) else best_run v n L).
Proof.
  intros h. unfold best_run. rewrite map_app. destruct L as [|x L]; [congruence|].
  cbn [map app]. rewrite first_best_app. reflexivity.
Qed.

Section Exact.
  Context {Nt Lt : Type} `{HLL : LossLaws Nt Lt} `{HAL : !AddLaws Nt} `{HDL : !DivLaws Nt Lt}.
  Variable M : Mat Nt.
  Variable n : nat.
  Variable D : nat -> nat -> Nt.
  Hypothesis HD : diss_matrix M n D.
  Local Notation v := (vals D).

  Lemma min_removal_first (rl : list Lt) b : snd (min_removal rl) = Some b ->
    forall c, c < b -> (vL (nth b rl lzero) < vL (nth c rl lzero))%Q.
  Proof.
    unfold min_removal.
    assert (G : forall post pre p,
      (match snd p with None => pre = [] | Some b => b < length pre /\ fst p = nth b pre lzero /\
         forall c, c < b -> (vL (nth b pre lzero) < vL (nth c pre lzero))%Q end) ->
      (match snd p with None => pre = [] | Some b => b < length pre /\ fst p = nth b pre lzero /\
         forall c, c < length pre -> (vL (nth b pre lzero) <= vL (nth c pre lzero))%Q end) ->
      let q := fold_left (fun r '(o, v) => if (o =? 0) || lltb v (fst r) then (v, Some o) else r)
              (combine (seq (length pre) (length post)) post) p in
      match snd q with None => pre ++ post = [] | Some b => b < length (pre ++ post) /\ fst q = nth b (pre ++ post) lzero /\
         forall c, c < b -> (vL (nth b (pre ++ post) lzero) < vL (nth c (pre ++ post) lzero))%Q end).
    { induction post as [|x post IH]; intros pre p hp hp'; cbn [length seq combine fold_left].
      - cbv zeta. rewrite app_nil_r. auto.
      - assert (e : pre ++ x :: post = (pre ++ [x]) ++ post) by (rewrite <- app_assoc; auto). rewrite e.
        assert (el : S (length pre) = length (pre ++ [x])) by (rewrite app_length; simpl; lia). rewrite el.
        assert (hx : nth (length pre) (pre ++ [x]) lzero = x) by (rewrite app_nth2, Nat.sub_diag; auto).
        apply IH; clear IH e.
        + destruct (Nat.eqb_spec (length pre) 0) as [e0|e0]; cbn [orb].
          * cbn [fst snd]. rewrite hx. split; [lia|]. split; [auto|]. lia.
          * destruct (lltb x (fst p)) eqn:ex.
            -- apply lltb_spec in ex. cbn [fst snd]. rewrite hx. split; [lia|]. split; [auto|]. intros c hc.
               rewrite app_nth1 by lia.
               destruct (snd p) as [b'|]; [|subst pre; simpl in e0; lia]. destruct hp' as (h1 & h2 & h3).
               specialize (h3 c ltac:(lia)). rewrite <- h2 in h3. lra.
            -- destruct (snd p) as [b'|]; [|subst pre; simpl in e0; lia]. destruct hp as (h1 & h2 & h3).
               rewrite app_nth1 by auto. split; [lia|]. split; [auto|]. intros c hc.
               rewrite app_nth1 by lia. auto.
        + destruct (Nat.eqb_spec (length pre) 0) as [e0|e0]; cbn [orb].
          * cbn [fst snd]. rewrite hx. split; [lia|]. split; [auto|]. intros c hc. assert (c = length pre) as -> by lia.
            rewrite hx. lra.
          * destruct (lltb x (fst p)) eqn:ex.
            -- apply lltb_spec in ex. cbn [fst snd]. rewrite hx. split; [lia|]. split; [auto|]. intros c hc.
               destruct (Nat.eq_dec c (length pre)) as [->|]; [rewrite hx; lra|]. rewrite app_nth1 by lia.
               destruct (snd p) as [b'|]; [|subst pre; simpl in e0; lia]. destruct hp' as (h1 & h2 & h3).
               specialize (h3 c ltac:(lia)). rewrite <- h2 in h3. lra.
            -- destruct (snd p) as [b'|]; [|subst pre; simpl in e0; lia]. destruct hp' as (h1 & h2 & h3).
               rewrite app_nth1 by auto. split; [lia|]. split; [auto|]. intros c hc.
               destruct (Nat.eq_dec c (length pre)) as [->|]; [|rewrite app_nth1 by lia; apply h3; lia].
               rewrite hx, <- h2. apply Qnot_lt_le. intros h. apply lltb_spec in h. congruence. }
    intros hb. specialize (G rl [] (lzero, None) eq_refl eq_refl). cbv zeta in G. cbn [length app] in G.
    unfold enum in hb. rewrite hb in G. destruct G as (g1 & _ & g2). auto.
  Qed.

  (** the medoid which is removed is the first of the worst ones *)
  Lemma removal_is_worst_drop k (s : mst Nt Lt) b : 1 <= n -> 3 <= k -> m_good n D k s ->
    snd (min_removal (m_rl s)) = Some b -> removed (m_med s) b = worst_drop v n (m_med s).
  Proof.
    intros hn hk [[i1 i2 i3 i4] g2 g3 g4 g5] hb. pose proof (min_removal_first _ hb) as hf.
    apply min_removal_ok in hb as [b1 b2].
    assert (hbl : b < length (m_med s)) by lia. assert (hk' : 3 <= length (m_med s)) by lia.
    symmetry. apply worst_drop_at; [auto| |].
    - intros c hc. apply rtot_le; auto.
      specialize (b2 c ltac:(lia)). pose proof (g4 b) as e1. pose proof (g4 c) as e2. rewrite e1, e2 in b2.
      rewrite (removal_delta HD i2 hk' hbl i3), (removal_delta HD i2 hk' hc i3) in b2. lra.
    - intros c hc. assert (hcl : c < length (m_med s)) by lia.
      apply Qnot_le_lt. intros hle. apply rtot_le in hle; auto.
      specialize (hf c hc). pose proof (g4 b) as e1. pose proof (g4 c) as e2. rewrite e1, e2 in hf.
      rewrite (removal_delta HD i2 hk' hbl i3), (removal_delta HD i2 hk' hcl i3) in hf. lra.
  Qed.

  Section Med.
    Variable med0 : list nat.
    Variable maxiter : nat.
    Hypothesis hs : sizes n (length med0).
    Hypothesis hm : medoids n (length med0) med0.
    Hypothesis hk4 : 2 <= length med0 <= 4.
    Local Notation k0 := (length med0).
    Let HM : is_matrix M n D := proj1 HD.
    Let hin : inr n med0 := proj2 (proj2 hm).
    Let hnd : NoDup med0 := proj1 (proj2 hm).
    Let Hemb : Emb n D v := proj1 (emb_vals HD).
    Let Hdg : Dg n D := proj2 (emb_vals HD).
    Local Notation rounds := (rounds (Lt := Lt) M n med0 maxiter).
    Local Notation start := (start (Lt := Lt) n D med0).
    Local Notation one := (eager_swaps (sil_better v n) (seq 0 n)).

    Lemma start_run c s0 s : 3 <= c -> c <= k0 -> start c s0 ->
      whileM maxiter (msc_iteration M) s0 = Ok s ->
      (m_med s, m_swaps s, m_iter s) = one (m_med s0) maxiter.
    Proof.
      intros hc hle hs0 e. assert (hn : 1 <= n) by (destruct hs; lia).
      assert (hg0 : m_good n D c s0).
      { destruct hs0 as [[i1 i2 i3 i4] (rl & l1 & l2) h4 h5 h6 h7 h8].
        destruct (h7 v Hdg Hemb hnd) as [o1 o2].
        assert (i3' : data3_ok n D True (m_med s0) (m_data s0)).
        { apply data3_weaken with (2 := i3); auto. intros _. right. lia. }
        constructor; auto.
        - constructor; auto.
        - assert (hl : length rl = length (m_med s0)) by lia. assert (hk' : 3 <= length (m_med s0)) by lia.
          pose proof (update_removal_loss3_ok HD rl i2 hk' i3' hl) as hu.
          apply oks_elim with (2 := l2) in hu. apply hu.
        - apply (ratio_sum_rtot HD i2 i3' h8). }
      pose proof hs0 as [_ _ q1 q2 q3 _ _].
      pose proof (msc_run_ok HD maxiter hn hc (@msc_measure_ok _ _ _ n D c) hg0 q2 q3 q1) as hrun.
      apply oks_elim with (2 := e) in hrun. apply (fr_ref hrun).
    Qed.

    Section Loop.
      Variable mk : nat.
      Hypothesis hmk : 1 <= mk <= k0.
      Local Notation d_inv := (d_inv (Lt := Lt) M n med0 maxiter mk).

      Record ref_inv (i : nat) (st : dst Nt Lt) : Prop := {
        ri_inv : d_inv i st;
        ri_runs : exists L, length L = i /\
          (forall t, shrink v n maxiter (i + t) med0 = L ++ shrink v n maxiter t (y_med st)) /\
          y_swaps st = all_swapped L /\ y_iter st = all_passes L /\
          (forall j, j < i -> mk <= k0 - j ->
            (vL (nth (k0 - j - mk) (y_losses st) lzero) == med_sil v n (end_of L j))%Q) /\
          (i = 0 -> y_best st = lzero) /\
          (0 < i -> y_meds st = best_run v n L /\ (vL (y_best st) == med_sil v n (y_meds st))%Q)
      }.

      Lemma dyn_round_ref i st : ref_inv i st ->
        oks (dyn_round M mk maxiter st) (fun c => match c with
          | Next s => ref_inv (S i) s
          | Break s => s = st /\ (k0 - i < 3 \/ k0 - i < mk) end).
      Proof.
        intros [hd (L & l1 & l2 & l3 & l4 & l5 & l6 & l7)]. assert (hn : 1 <= n) by (destruct hs; lia).
        pose proof (dyn_round_ok HM hs hin (proj1 hk4) hmk hd) as hstep.
        pose proof hd as [h1 h2 h3 h3' h3'' h4 h5 h6 h7 h8 h9 h10 h11 h12].
        revert hstep. unfold dyn_round. rewrite h2.
        destruct (negb _) eqn:eb; [auto|].
        apply negb_false_iff, andb_true_iff in eb as [eb1 eb2]. apply Nat.leb_le in eb1, eb2.
        assert (hk3 : 3 <= k0) by lia.
        assert (G : exists rl s, update_removal_loss3 (y_data st) (y_rl st) = Ok rl /\
           whileM maxiter (msc_iteration M) (mkM (y_med st) (y_data st) rl (y_loss st) n 0 0) = Ok s /\
           rounds (k0 - i) s /\ (m_med s, m_swaps s, m_iter s) = one (y_med st) maxiter).
        { destruct h4 as [(-> & e1 & e2 & e3 & _)|(hi & s & b & e1 & e2 & e3 & e4)].
          - destruct (first_start HM hs hin hk3) as (loss1 & data1 & rl1 & f1 & f2 & f3).
            rewrite e1 in f1. injection f1 as <- <-. rewrite e3, e2.
            destruct (start_stage HM maxiter hn hk3 (le_n _) f3) as (s1 & g1 & g2).
            exists rl1, s1. split; [auto|]. split; [auto|]. split.
            + rewrite Nat.sub_0_r. econstructor; eauto.
            + apply (start_run hk3 (le_n _) f3 g1).
          - pose proof (rounds_stage HM hs hin hk3 e1) as hst.
            assert (hc' : 3 <= S (k0 - i)) by lia.
            destruct (stage_removal HM hn hc' hst) as (b1 & med1 & data1 & loss1 & f1 & f2 & f3 & f4 & f5 & f6 & f7 & _ & f8).
            rewrite e2 in f1. injection f1 as <-. rewrite e3 in f3. injection f3 as e5 e6 e7.
            destruct f8 as (rl1 & g1 & g2); [lia|]. rewrite <- e5, <- e6, <- e7 in *.
            rewrite e4. replace (S (k0 - i) - 1) with (k0 - i) in g2 by lia.
            assert (hle : k0 - i <= k0) by lia.
            destruct (start_stage HM maxiter hn eb1 hle g2) as (s1 & q1 & q2).
            exists rl1, s1. split; [auto|]. split; [auto|]. split; [eapply rounds_next; eauto|].
            apply (start_run eb1 hle g2 q1). }
        destruct G as (rl & s & -> & e & hr & href). cbn [bind]. rewrite (len_n HM), e. cbn [bind].
        pose proof (rounds_stage HM hs hin hk3 hr) as hst.
        assert (hg4 : k0 - i = k0 \/ k0 <= 4) by lia.
        destruct (rounds_good HD hs hm hk3 eb1 hr hg4) as [g1 g2 _ _ _].
        destruct (stage_removal HM hn eb1 hst) as (b & med' & data' & loss' & f1 & f2 & f3 & f4 & f5 & f6 & f7 & _ & _).
        rewrite upd_ok by lia. cbn [bind]. rewrite f1, f3. cbn [bind oks].
        set (loss := to_silhouette M (m_loss s)) in *. intros hd'.
        constructor; [exact hd'|]. clear hd'.
        cbn [y_med y_data y_rl y_loss y_losses y_best y_assi y_meds y_iter y_swaps].
        set (r := (m_med s, m_swaps s, m_iter s)) in *.
        exists (L ++ [r]). split; [rewrite app_length; simpl; lia|]. split.
        { intros t. replace (S i + t) with (i + S t) by lia. rewrite l2, <- app_assoc. f_equal.
          cbn [shrink app]. rewrite <- href. subst r. cbn [fst]. rewrite f4.
          rewrite (removal_is_worst_drop hn eb1 g1 f1). reflexivity. }
        split; [rewrite l3; unfold all_swapped; rewrite map_app, list_sum_app; subst r; simpl; lia|].
        split; [rewrite l4; unfold all_passes; rewrite map_app, list_sum_app; subst r; simpl; lia|].
        split.
        { intros j hj hj'. destruct (Nat.eq_dec j i) as [->|hne].
          - unfold end_of. rewrite nth_set_nth_eq by lia. rewrite app_nth2, l1, Nat.sub_diag by lia. exact g2.
          - unfold end_of. rewrite nth_set_nth_neq by lia. rewrite app_nth1 by lia. apply l5; lia. }
        split; [lia|]. intros _.
        destruct (Nat.eq_dec i 0) as [->|hi].
        { rewrite (l6 eq_refl). destruct L; [|simpl in l1; lia]. cbn [app].
          replace (lltb lzero loss) with true; [split; [reflexivity|exact g2]|].
          symmetry. apply lltb_spec. rewrite vL_zero, g2.
          destruct g1 as [[i1 i2 _ _] _ _ _ _]. apply (med_sil_pos HD hn i2). lia. }
        destruct (l7 ltac:(lia)) as [m1 m2].
        rewrite best_run_snoc by (intros ->; simpl in l1; lia). rewrite <- m1. subst r. cbn [fst].
        replace (lltb (y_best st) loss) with (sil_better v n (m_med s) (y_meds st)).
        - destruct (sil_better v n (m_med s) (y_meds st)); split; auto.
        - unfold sil_better. destruct (lltb (y_best st) loss) eqn:el.
          + apply lltb_spec in el. apply Qlt_bool_iff. rewrite <- m2, <- g2. exact el.
          + apply Qlt_bool_false. rewrite <- m2, <- g2. apply Qnot_lt_le. intros h. apply lltb_spec in h. congruence.
      Qed.

      Lemma dyn_loop_ref data loss : initial_assignment3 M med0 = Ok (loss, data) ->
        oks (whileM k0 (dyn_round M mk maxiter)
               (mkD med0 data (repeat lzero k0) loss (repeat lzero (k0 - mk + 1)) lzero [0; mlen M] med0 0 0))
            (fun st => exists i, ref_inv i st /\ k0 - i = (if k0 =? 2 then 2 else Nat.max (mk - 1) 2)).
      Proof.
        intros e. apply whileM_oks with (I := ref_inv).
        - constructor.
          + constructor; cbn [y_med y_data y_rl y_loss y_losses y_best y_assi y_meds y_iter y_swaps]; try lia.
            * left. auto 10.
            * apply repeat_length.
            * intros c _ _. apply nth_repeat.
            * left. rewrite (len_n HM). auto.
            * intros P le (h & _) p0 _. split; [auto|]. split; [auto|]. lia.
          + exists []. cbn [y_med y_losses y_best y_meds y_iter y_swaps app length].
            repeat split; auto; try lia.
        - intros i s hi h. eapply oks_mono; [apply dyn_round_ref; eauto|].
          intros [s'|s']; [auto|]. intros [-> hend]. exists i. split; [auto|].
          pose proof (di_two (ri_inv h)) as d1. pose proof (di_le (ri_inv h)). pose proof (di_three (ri_inv h)).
          destruct (Nat.eqb_spec k0 2) as [e2|e2].
          + destruct (Nat.eq_dec i 0); [|lia]. lia.
          + destruct (Nat.eq_dec i 0) as [->|]; [lia|]. pose proof (di_mk (ri_inv h)). lia.
        - intros s h. pose proof (di_two (ri_inv h)). lia.
      Qed.
    End Loop.

    Lemma dynmsc_ref mink :
      let mk := Nat.min (Nat.max mink 1) k0 in
      let runs := shrink v n maxiter (k0 - Nat.max mk 2 + 1) med0 in
      exists r : dyn_result Lt, dynmsc M med0 mink maxiter = Ok r /\
        r_med (d_res r) = best_run v n runs /\
        r_swaps (d_res r) = all_swapped runs /\ r_iter (d_res r) = all_passes runs /\
        (forall c, mk <= c -> 2 <= c <= k0 ->
           (vL (nth (c - mk) (d_losses r) lzero) == med_sil v n (end_of runs (k0 - c)))%Q).
    Proof.
      cbv zeta. unfold dynmsc. set (mk := Nat.min (Nat.max mink 1) k0).
      assert (hmk : 1 <= mk <= k0) by (unfold mk; lia). clearbody mk.
      assert (hn : 1 <= n) by (destruct hs; lia).
      replace (k0 =? 1) with false by (symmetry; apply Nat.eqb_neq; lia).
      pose proof (initial_assignment3_ok (Lt := Lt) HM True hs hin (proj1 hk4)) as h.
      apply oks_inv in h as ([loss data] & e & _). rewrite e. cbn [bind].
      pose proof (dyn_loop_ref hmk e) as hl.
      apply oks_inv in hl as (st & -> & i & hi & hend). cbn [bind].
      destruct hi as [hi (L & l1 & l2 & l3 & l4 & l5 & l6 & l7)].
      pose proof (di_two hi) as d2. pose proof (di_three hi) as d3. pose proof (di_mk hi) as d4.
      assert (hlen := di_losses hi).
      destruct (Nat.leb_spec mk 2) as [h2|h2].
      - assert (hi2 : k0 - i = 2) by (revert hend; destruct (Nat.eqb_spec k0 2); lia).
        assert (ht : two (Lt := Lt) M n med0 maxiter (y_med st)).
        { destruct (di_prev hi) as [(-> & e1 & e2 & _)|(h0 & s & b & e1 & e2 & e3 & _)].
          - left. split; [lia|auto].
          - right. split; [auto|]. exists s, b, (y_data st), (y_loss st). rewrite hi2 in e1. auto. }
        destruct (two_medoids HD hs hm (proj1 hk4) hmk ht) as (t1 & t2 & t3).
        assert (hs2 : sizes n (length (y_med st))) by (rewrite t1; auto).
        assert (hm2 : medoids n (length (y_med st)) (y_med st)) by (rewrite t1; auto).
        assert (hl2 : 2 <= length (y_med st)) by lia.
        destruct (fastermsc_all (Lt := Lt) HD maxiter hs2 hm2 hl2) as (r2 & e2 & hsum & _ & _ & _ & href).
        unfold fastermsc in e2. rewrite t1 in e2. cbn [Nat.eqb] in e2. rewrite e2. cbn [bind].
        rewrite upd_ok by lia. cbn [bind].
        set (losses := set_nth (y_losses st) (2 - mk) (r_loss r2)).
        assert (hL : exists l, (if mk <=? 1 then upd losses 0 lzero else Ok losses) = Ok l /\
          (forall c, mk <= c -> 3 <= c -> nth (c - mk) l lzero = nth (c - mk) (y_losses st) lzero) /\
          nth (2 - mk) l lzero = r_loss r2).
        { assert (h2' : nth (2 - mk) losses lzero = r_loss r2) by (apply nth_set_nth_eq; lia).
          assert (h3' : forall c, mk <= c -> 3 <= c -> nth (c - mk) losses lzero = nth (c - mk) (y_losses st) lzero)
            by (intros c c1 c2; apply nth_set_nth_neq; lia).
          assert (hll : length losses = k0 - mk + 1) by (unfold losses; rewrite length_set_nth; auto).
          destruct (Nat.leb_spec mk 1) as [h1|h1].
          - rewrite upd_ok by lia. eexists. split; [reflexivity|].
            split; [intros c c1 c2; rewrite nth_set_nth_neq by lia; auto|].
            rewrite nth_set_nth_neq by lia; auto.
          - exists losses. auto. }
        destruct hL as (l & el & hl3 & hl4). cbn [y_losses]. fold losses. rewrite el. clear el. cbn [bind].
        eexists. split; [reflexivity|].
        cbn [d_res d_losses r_loss r_assi r_iter r_swaps r_med y_best y_assi y_meds y_iter y_swaps].
        replace (k0 - Nat.max mk 2 + 1) with (i + 1) by lia. rewrite (l2 1).
        change (shrink v n maxiter 1 (y_med st)) with [one (y_med st) maxiter]. rewrite <- href.
        split.
        { destruct (Nat.eq_dec i 0) as [->|h0].
          - rewrite (l6 eq_refl). destruct L; [|simpl in l1; lia]. cbn [app].
            replace (lltb lzero (r_loss r2)) with true; [reflexivity|].
            symmetry. apply lltb_spec. rewrite vL_zero, (ms_value hsum).
            destruct (ms_medoids hsum) as (x1 & _ & x2). apply (med_sil_pos HD hn x2). lia.
          - destruct (l7 ltac:(lia)) as [m1 m2].
            rewrite best_run_snoc by (intros ->; simpl in l1; lia). rewrite <- m1. cbn [fst].
            replace (lltb (y_best st) (r_loss r2)) with (sil_better v n (r_med r2) (y_meds st)); [reflexivity|].
            pose proof (ms_value hsum) as g2.
            unfold sil_better. destruct (lltb (y_best st) (r_loss r2)) eqn:el.
            + apply lltb_spec in el. apply Qlt_bool_iff. rewrite <- m2, <- g2. exact el.
            + apply Qlt_bool_false. rewrite <- m2, <- g2. apply Qnot_lt_le. intros h. apply lltb_spec in h. congruence. }
        split; [rewrite l3; unfold all_swapped; rewrite map_app, list_sum_app; simpl; lia|].
        split; [rewrite l4; unfold all_passes; rewrite map_app, list_sum_app; simpl; lia|].
        intros c c1 c2. destruct (Nat.eq_dec c 2) as [->|hne].
        + unfold end_of. rewrite hl4, (ms_value hsum). rewrite app_nth2 by lia.
          replace (k0 - 2 - length L) with 0 by lia. reflexivity.
        + unfold end_of. rewrite hl3 by lia. rewrite app_nth1 by lia.
          specialize (l5 (k0 - c) ltac:(lia)). replace (k0 - (k0 - c)) with c in l5 by lia. apply l5. auto.
      - assert (h1 : mk <=? 1 = false) by (apply Nat.leb_gt; lia). cbn [bind]. rewrite h1. cbn [bind].
        assert (hi2 : k0 - i = mk - 1) by (revert hend; destruct (Nat.eqb_spec k0 2); lia).
        eexists. split; [reflexivity|].
        cbn [d_res d_losses r_loss r_assi r_iter r_swaps r_med].
        replace (k0 - Nat.max mk 2 + 1) with (i + 0) by lia. rewrite (l2 0). cbn [shrink]. rewrite app_nil_r.
        split; [apply l7; lia|]. split; [auto|]. split; [auto|].
        intros c c1 c2. specialize (l5 (k0 - c) ltac:(lia)).
        replace (k0 - (k0 - c)) with c in l5 by lia. apply l5. auto.
    Qed.
  End Med.
End Exact.
