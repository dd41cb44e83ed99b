(** FloatPar.v -- par_fasterpam with rounding: rounding errors of the parallel evaluation, and why it stops *)
From Coq Require Import ZArith QArith Qpower Qround Lqa Lia Permutation.
From Coq.Floats Require Import SpecFloat.
From Verif Require Import Base Num M_Mat M_Util M_Fasterpam M_ParFasterpam Inst Hoare Spec SpecFacts Laws FloatFacts FloatExact
  FloatRound PamShape PamExact PamFacts ParFacts LocalSearch Term FloatSil FloatLoss FloatMain FloatFmt FloatSwap.
Set Implicit Arguments.
Open Scope Q_scope.

Section Par.
  Context {Nt : Type} `{HO : OrdLaws Nt} {Lt : Type} `{LF : LossFmt Lt} `{HFN : FromN Nt Lt}.
  Variable M : Mat Nt.
  Variable n : nat.
  Variable D : nat -> nat -> Nt.
  Hypothesis HD : diss_matrix M n D.
  Hypothesis HE : exact_in n D.
  Variable mx : Q.
  Hypothesis Hmx : forall x y, (x < n)%nat -> (y < n)%nat -> vals D x y <= mx.
  Hypothesis Hbig : 4 * cnt n * mx <= lbig.
  Hypothesis Hn : (1 <= n)%nat.
  Hypothesis Hn32 : 64 * cnt n * lunit <= 1.
  Notation v := (vals D).
  Notation app := (app n mx).
  Notation dlt := (dlt n mx).
  Notation err := (err n mx).
  Let HM : is_matrix M n D := proj1 HD.

  (** adding zero *)
  Lemma app_add0 t q a x : (t <= 16 * n)%nat -> - (3 * (cnt n * mx)) <= q -> q <= 3 * (cnt n * mx) ->
    app t q a -> app 0 0 x -> app t q (ladd a x).
  Proof.
    intros ht h1 h2 [f1 [c1 c2]] [f2 [d1 d2]]. change (cnt 0) with 0 in d1, d2.
    assert (hx : lval x == 0) by lra.
    pose proof (few_errors HD Hmx Hn Hn32 ht) as he. pose proof Hbig as hb.
    destruct (@fmt_add Lt _ _ a x (4 * cnt n * mx) f1 f2) as (g1 & _); [lra|lra|exact hb|].
    assert (e : lval (ladd a x) == lval a).
    { apply Qle_antisym; [apply fmt_add_le|apply fmt_add_ge]; auto; lra. }
    split; [exact g1|]. unfold lclose. rewrite e. split; assumption.
  Qed.

  (** merging the result of a task which handled [L] objects *)
  Lemma app_merge t L q1 q2 a x : (t + 2 * L <= 16 * n)%nat -> (L = 0%nat -> q2 == 0) ->
    - (3 * (cnt n * mx)) <= q1 + q2 -> q1 + q2 <= 3 * (cnt n * mx) ->
    app t q1 a -> app (2 * L) q2 x -> app (t + 3 * L) (q1 + q2) (ladd a x).
  Proof.
    intros ht h0 h1 h2 ha hx. destruct L as [|L].
    - specialize (h0 eq_refl). apply (app_mono HD Hmx Hn) with t q1; [lia|lra|].
      apply app_add0; auto; [lia|lra|lra|]. eapply (app_mono HD Hmx Hn); [| |exact hx]; [lia|auto].
    - eapply (app_mono HD Hmx Hn); [| |apply (app_add HD Hmx Hbig Hn Hn32) with (t1 := t) (t2 := (2 * S L)%nat); eauto]; [lia|reflexivity].
  Qed.

  Definition slot_within (E : Q) (med : list nat) (j : nat) (p : Lt * nat) : Prop :=
    (snd p < length med)%nat /\ lfin (fst p) /\ lclose E (delta n D med (snd p) j) (fst p) /\
    (forall c, (c < length med)%nat -> lval (fst p) <= delta n D med c j + E).

  Lemma par_fbs_near s med data (rl : list Lt) j :
    inr n med -> data_ok n D med data -> length rl = length med -> (1 <= length med)%nat -> (j < n)%nat ->
    rl_near n mx data rl -> sched_ok s ->
    oks (par_find_best_swap M s rl data j) (slot_within (2 * err) med j).
  Proof.
    intros hin hdata hrl hk hj hrn [hp hperm]. pose proof hdata as [hl hd]. unfold par_find_best_swap. rewrite (len_n HM).
    set (st := ((n + s_parts s - 1) / s_parts s)%nat).
    set (part := fun l => flat_map (chunk st (enum data)) l).
    assert (hcov : Permutation (part (s_order s)) (enum data)).
    { unfold part, st. rewrite <- hl, <- (length_enum data). apply chunks_cover; auto. }
    assert (hin' : forall l p, In p (part l) -> In p (enum data)).
    { intros l p hp'. apply in_flat_map in hp' as (x & _ & hx). apply In_chunk in hx. exact hx. }
    assert (htot : length (part (s_order s)) = n) by (rewrite (Permutation_length hcov), length_enum; auto).
    assert (hpart : forall pre post, s_order s = pre ++ post -> (length (part pre) <= n)%nat).
    { intros pre post e. rewrite <- htot, e. unfold part. rewrite flat_map_app, app_length. lia. }
    pose proof (nmx_pos HD Hmx Hn) as hnm.
    assert (hbo : forall c l, (length l <= n)%nat -> (forall p, In p l -> In p (enum data)) ->
      - (cnt n * mx) <= sumQ (own_of D j c) l /\ sumQ (own_of D j c) l <= cnt n * mx).
    { intros c l h1 h2. apply (sum_short_bound HD Hmx Hn); auto. intros p hp'. eapply (parts_bound HD Hmx Hn); eauto. }
    assert (hbs : forall l, (length l <= n)%nat -> (forall p, In p l -> In p (enum data)) ->
      - (cnt n * mx) <= sumQ (shared_of D j) l /\ sumQ (shared_of D j) l <= cnt n * mx).
    { intros l h1 h2. apply (sum_short_bound HD Hmx Hn); auto. intros p hp'. 
      eapply (parts_bound HD Hmx Hn 0); eauto. }
    assert (hR : forall c, - (cnt n * mx) <= sumQ (rem_of c) data /\ sumQ (rem_of c) data <= cnt n * mx).
    { intros c. apply (sum_short_bound HD Hmx Hn); [lia|]. eapply (rem_bound HD Hmx Hn); eauto. }
    eapply oks_bind.
    - apply foldM_oks with (I := fun pre (p : list Lt * Lt) => length (fst p) = length med /\
        (forall c, (c < length med)%nat -> app (2 * n + 3 * length (part pre))
           (sumQ (rem_of c) data + sumQ (own_of D j c) (part pre)) (nth c (fst p) lzero)) /\
        app (3 * length (part pre)) (sumQ (shared_of D j) (part pre)) (snd p)).
      + cbn [fst snd part flat_map length]. split; [auto|]. split; [|apply (app_zero HD Hmx Hn)].
        intros c hc. eapply (app_mono HD Hmx Hn); [| |apply hrn; lia]; [lia|]. cbn [sumQ fold_right]. lra.
      + intros pre x post [pl acc] e (h1 & h2 & h3). cbn [fst snd] in h1, h2, h3.
        set (ch := chunk st (enum data) x).
        assert (epart : part (pre ++ [x]) = part pre ++ ch).
        { unfold part. rewrite flat_map_app. cbn [flat_map]. rewrite app_nil_r. reflexivity. }
        assert (e' : s_order s = (pre ++ [x]) ++ post) by (rewrite <- app_assoc; exact e).
        pose proof (hpart _ _ e') as hpl. rewrite epart, app_length in hpl.
        assert (hch : forall p, In p ch -> In p (enum data)) by (intros p hp'; apply In_chunk in hp'; exact hp').
        eapply oks_bind.
        { unfold par_task. rewrite (len_n HM), hrl.
          replace (skipn (x * st) (firstn (Nat.min (x * st + st) n) (enum data))) with ch
            by (unfold ch, chunk; rewrite length_enum, hl; reflexivity).
          apply (fbs_fold_part HD HE Hmx Hbig Hn Hn32) with (med := med) (data := data) (t := 0%nat) (q := fun _ => 0); auto.
          - apply repeat_length.
          - lia.
          - lia.
          - intros c. lra.
          - intros c hc. rewrite nth_repeat. apply (app_zero HD Hmx Hn). }
        intros [loss lagg] (g1 & g2 & g3). cbn [oks fst snd] in *.
        assert (hz : forall f : nat * Rec Nt -> Q, length ch = 0%nat -> sumQ f ch == 0).
        { intros f hz. destruct ch; [reflexivity|discriminate]. }
        rewrite epart, app_length.
        split; [rewrite map_length, combine_length; lia|]. split.
        * intros c hc. rewrite (nth_indep _ lzero (ladd lzero lzero)) by (rewrite map_length, combine_length; lia).
          change (ladd lzero lzero) with ((fun '(a, b) => ladd a b) ((lzero, lzero) : Lt * Lt)).
          rewrite map_nth, combine_nth by lia.
          destruct (hbo c (part (pre ++ [x])) ltac:(rewrite epart, app_length; lia) ltac:(intros p; apply hin')) as [b1 b2].
          rewrite epart, sumQ_app in b1, b2. pose proof (hR c) as hRc.
          eapply (app_mono HD Hmx Hn); [| |apply app_merge with (t := (2 * n + 3 * length (part pre))%nat) (L := length ch);
            [| | | |exact (h2 c hc)|exact (g2 c hc)]].
          -- lia.
          -- rewrite sumQ_app. lra.
          -- lia.
          -- intros hz0. rewrite (hz _ hz0). lra.
          -- lra.
          -- lra.
        * destruct (hbs (part (pre ++ [x])) ltac:(rewrite epart, app_length; lia) ltac:(intros p; apply hin')) as [b1 b2].
          rewrite epart, sumQ_app in b1, b2.
          eapply (app_mono HD Hmx Hn); [| |apply app_merge with (t := (3 * length (part pre))%nat) (L := length ch);
            [| | | |exact h3|exact g3]].
          -- lia.
          -- rewrite sumQ_app. reflexivity.
          -- lia.
          -- intros hz0. apply hz; auto.
          -- lra.
          -- lra.
    - intros [pl acc] (hs1 & hs2 & hs3). cbn [fst snd] in hs1, hs2, hs3. rewrite htot in hs2, hs3.
      eapply oks_bind; [apply find_min_fmt|].
      + intros ->. simpl in hs1. lia.
      + intros x hx. apply (In_nth _ _ (lzero : Lt)) in hx as (c & hc & <-). apply hs2. lia.
      + intros [b bl] (q1 & q2 & q3). cbn [fst snd] in *. rewrite hs1 in *. cbn [oks].
        assert (hsum : forall f : nat * Rec Nt -> Q, sumQ f (part (s_order s)) == sumQ f (enum data)).
        { intros f. apply sumQ_perm. exact hcov. }
        assert (hdel : forall c, (c < length med)%nat ->
          sumQ (rem_of c) data + sumQ (own_of D j c) (part (s_order s)) + sumQ (shared_of D j) (part (s_order s)) == delta n D med c j).
        { intros c hc. rewrite !hsum. unfold delta. rewrite <- (part_delta HD hin hj hc hdata).
          rewrite (sumQ_ext (part_of D j c) (fun p => own_of D j c p + shared_of D j p)) by (intros; apply part_split).
          rewrite sumQ_plus. ring. }
        destruct (hbs (part (s_order s)) ltac:(lia) ltac:(intros p; apply hin')) as [b1 b2].
        destruct (hbo b (part (s_order s)) ltac:(lia) ltac:(intros p; apply hin')) as [b3 b4]. pose proof (hR b) as hRb.
        pose proof (hs2 b q1) as hb. rewrite <- q2 in hb.
        assert (hA : app (S (5 * n + 3 * n)) (sumQ (rem_of b) data + sumQ (own_of D j b) (part (s_order s)) + sumQ (shared_of D j) (part (s_order s))) (ladd bl acc)).
        { apply (app_add HD Hmx Hbig Hn Hn32); auto; [lia|lra|lra|]. eapply (app_mono HD Hmx Hn); [| |exact hb]; [lia|reflexivity]. }
        assert (hE : cnt (S (5 * n + 3 * n)) * dlt <= 2 * err).
        { pose proof (dlt_pos HD Hmx Hn) as hdp.
          apply Qle_trans with (cnt (16 * n) * dlt); [apply Qmult_le_compat_r; [apply cnt_le; lia|auto]|].
          rewrite cnt_mul. change (cnt 16) with 16. unfold FloatSwap.err, FloatSwap.dlt. apply Qle_lteq. right. ring. }
        destruct hA as [f1 f2]. unfold slot_within. cbn [fst snd]. split; [auto|]. split; [exact f1|].
        split; [eapply lclose_le; [exact hE|]; eapply lclose_ext; [reflexivity|apply hdel; auto|exact f2]|].
        intros c hc. specialize (q3 c hc). destruct (hs2 c hc) as [_ [c1 c2]]. destruct hb as [fb [b5 b6]].
        destruct hs3 as [fa [a1 a2]]. rewrite <- (hdel c hc).
        pose proof (few_errors HD Hmx Hn Hn32 (t := 2 * n + 3 * n + 3 * n) ltac:(lia)) as he. rewrite cnt_add in he.
        pose proof (dlt_pos HD Hmx Hn) as hdp.
        assert (hn4 : 0 <= cnt (2 * n + 3 * n) * dlt) by (apply Qmult_le_0_compat; [apply cnt_pos|auto]).
        assert (hn2 : 0 <= cnt (3 * n) * dlt) by (apply Qmult_le_0_compat; [apply cnt_pos|auto]).
        destruct (@fmt_add Lt _ _ bl acc (4 * cnt n * mx) fb fa) as [_ [_ g4]]; [lra|lra|apply Hbig|].
        change (lunit * (4 * cnt n * mx)) with dlt in g4.
        replace (S (5 * n + 3 * n))%nat with (S (2 * n + 3 * n + 3 * n)) in hE by lia. rewrite cnt_S, cnt_add in hE. lra.
  Qed.

  Hypothesis Hz : lfrom (nzero : Nt) = (lzero : Lt).

  Lemma par_cand_near orc k s j : oracle_ok orc -> (1 <= k)%nat -> (j < n)%nat -> core n D mx k s ->
    oks (par_cand M orc s j) (cand_near n D mx (2 * err) k s j).
  Proof.
    intros hor hk hj hc. pose proof hc as [[i1 i2 i3 i4] g2 g3]. pose proof (err_pos HD Hmx Hn) as hep.
    unfold par_cand. destruct (Nat.eqb_spec j (fp_last s)) as [e1|e1]; [cbn; auto|].
    destruct (nth_error_ex (fp_data s) (i := j)) as [r hr]; [destruct i3; lia|].
    rewrite (idx_some _ _ hr). cbn [bind].
    destruct (rec2_near (proj2 i3 j r hr)) as (a & ea & ha).
    rewrite ea. cbn [as_usize]. rewrite idx_nth with (d := 0%nat) by lia. cbn [bind].
    destruct (Nat.eqb_spec j (nth a (fp_med s) 0%nat)) as [e2|e2].
    { cbn [oks]. split; [auto|]. split; [auto|]. split; [auto|]. left. split; [auto|].
      apply no_gain_medoid; [lra|]. rewrite e2. apply nth_In. auto. }
    assert (hl : length (fp_rl s) = length (fp_med s)) by congruence.
    assert (hk' : (1 <= length (fp_med s))%nat) by lia.
    pose proof (par_fbs_near i2 i3 hl hk' hj g2 (hor (fp_iter s) j)) as hf.
    apply oks_inv in hf as ([ch b] & -> & b1 & b2 & [b3 b3'] & b4). cbn [bind fst snd] in *.
    destruct (lleb lzero ch) eqn:el.
    { cbn [oks]. split; [auto|]. split; [auto|]. split; [auto|]. left. split; [auto|].
      intros c hc'. apply fmt_lleb in el; [|exact fmt_zero|auto]. rewrite fmt_zero_val in el. specialize (b4 c hc'). lra. }
    apply fmt_lleb_false in el; [|exact fmt_zero|auto]. rewrite fmt_zero_val in el.
    destruct (par_swap_data HD (o_swap orc (fp_iter s) j) Hn i2 hj b1 i3) as (data' & loss & loss' & e & -> & hls).
    cbn [bind].
    pose proof (do_swap_ok (Lt := Lt) HM Hn i2 hj b1 i3) as hs. apply oks_elim with (2 := e) in hs.
    destruct hs as (_ & s1 & _).
    assert (hl' : length (fp_rl s) = length (set_nth (fp_med s) b j)) by (rewrite length_set_nth; congruence).
    pose proof (update_removal_loss_near HD HE Hmx Hbig Hn Hn32 (fp_rl s) (inr_set_nth b i2 hj) s1 hl') as hu.
    apply oks_inv in hu as (rl' & -> & hu1 & hu2). cbn [bind oks]. rewrite length_set_nth in hu1.
    split; [|split; [auto|split; [auto|]]].
    - constructor; cbn [fp_med fp_data fp_rl fp_loss]; auto.
      + constructor; cbn [fp_med fp_data fp_rl]; auto; [rewrite length_set_nth; auto|apply inr_set_nth; auto|lia].
      + apply treduce_bracketed with (o_swap orc (fp_iter s) j). apply hls. exact Hz.
    - right. cbn [fp_med fp_last fp_swaps]. split; [auto|]. split; [auto|]. split.
      + rewrite <- (nth_set_nth_eq (fp_med s) j 0%nat b1) at 1. apply nth_In. rewrite length_set_nth. auto.
      + unfold delta in b3, b3'. rewrite swap_set_nth in b3, b3' by auto. lra.
  Qed.

  Lemma par_start orc med : sizes n (length med) -> inr n med -> (2 <= length med)%nat ->
    exists loss data rl, core n D mx (length med) (mkFp med data rl loss n 0 0) /\
      forall order f, par_fasterpam M orc order med f =
        bind (whileM f (pass (par_cand M orc) order) (mkFp med data rl loss n 0 0))
          (fun st => Ok (mkPR (fp_loss st) (assignment_of (fp_data st)) (fp_iter st) (fp_swaps st) (fp_med st))).
  Proof.
    intros hs hin hk.
    destruct (par_initial_data (Lt := Lt) HD (o_init orc) hs hin hk) as (loss & loss' & data & e & e' & hls).
    pose proof (initial_assignment_ok (Lt := Lt) HM hs hin hk) as h. apply oks_elim with (2 := e) in h.
    destruct h as (hd & _ & _). cbn [snd] in *.
    pose proof (update_removal_loss_near HD HE Hmx Hbig Hn Hn32 _ hin hd (repeat_length (lzero : Lt) (length med))) as h.
    apply oks_inv in h as (rl & er & hrl & hrn).
    exists loss', data, rl. split.
    - constructor; [constructor|..]; auto. apply treduce_bracketed with (o_init orc). exact hls.
    - intros order f. unfold par_fasterpam.
      replace (length med =? 1)%nat with false by (symmetry; apply Nat.eqb_neq; lia).
      rewrite e'. cbn [bind]. rewrite er. cbn [bind]. rewrite (len_n HM). reflexivity.
  Qed.
End Par.

(** ** why it stops: the values which a sum of n terms can have, whatever the order of the additions,
    lie on few different binary64 numbers *)
Section Levels.
  Context {Lt : Type} `{LF : LossFmt Lt}.
  Variables n k : nat.
  Hypothesis Hn : (1 <= n)%nat.
  Hypothesis Hn32 : 64 * cnt n * lunit <= 1.
  (** the exact sum for a list of medoids *)
  Variable T : list nat -> Q.

  Definition rel : Q := (cnt n - 1) * (2 * lunit).
  Definition lo (m : list nat) : Q := (1 - rel) * T m.
  Definition level (m : list nat) (i : nat) : Q := lo m + cnt i * (lo m * lunit).
  Definition levels : list Q := flat_map (fun m => map (level m) (seq 0 (5 * n + 1))) (all_lists n k).
  Definition lower (x : Q) : nat := length (filter (fun p => negb (Qle_bool x p)) levels).

  Lemma length_levels : length levels = ((5 * n + 1) * n ^ k)%nat.
  Proof.
    unfold levels. rewrite <- (length_all_lists n k). induction (all_lists n k) as [|m l IH]; [cbn; lia|].
    cbn [flat_map length]. rewrite app_length, map_length, seq_length, IH. lia.
  Qed.

  Lemma rel_small : 0 <= rel /\ rel <= 1 # 32.
  Proof.
    unfold rel. assert (h1 : 1 <= cnt n) by (change 1 with (cnt 1); apply cnt_le; exact Hn).
    pose proof lunit_pos as hu. split; [apply Qmult_le_0_compat; lra|lra].
  Qed.

  (** a level between a sum and a larger number *)
  Lemma level_between m y : length m = k -> inr n m -> 0 <= T m -> lfin y -> lclose (rel * T m) (T m) y ->
    exists p, In p levels /\ lval y <= p /\ forall x, lfin x -> lval y < lval x -> p < lval x.
  Proof.
    intros hl hi ht hy [c1 c2]. destruct rel_small as [r0 r1].
    assert (hlo : 0 <= lo m) by (unfold lo; apply Qmult_le_0_compat; lra).
    assert (hlo1 : lo m <= lval y) by (unfold lo; lra).
    assert (hin : forall i, (i <= 5 * n)%nat -> In (level m i) levels).
    { intros i hi'. unfold levels. apply in_flat_map. exists m. split; [apply in_all_lists; auto|].
      apply in_map. apply in_seq. lia. }
    destruct (Qlt_le_dec 0 (T m)) as [hT|hT].
    - set (g := lo m * lunit).
      assert (hlop : 0 < lo m).
      { unfold lo. assert (e : 0 == 0 * T m) by ring. rewrite e. apply Qmult_lt_r; lra. }
      assert (hg : 0 < g) by (unfold g; assert (e : 0 == 0 * lunit) by ring; rewrite e; apply Qmult_lt_r; [exact lunit_pos|exact hlop]).
      set (q := (lval y - lo m) / g).
      assert (hq0 : 0 <= q) by (unfold q; apply Qle_shift_div_l; [auto|lra]).
      assert (hqg : q * g == lval y - lo m) by (unfold q; field; lra).
      pose proof (Qle_ceiling q) as cl. pose proof (Qceiling_lt q) as cu.
      assert (hc0 : (0 <= Qceiling q)%Z).
      { rewrite Zle_Qle. change (inject_Z 0) with 0. lra. }
      assert (hup : (Qceiling q <= 5 * Z.of_nat n)%Z).
      { assert (hq5 : q <= 5 * cnt n).
        { unfold q. apply Qle_shift_div_r; [auto|].
          assert (e : 2 * rel * T m == (4 * (cnt n - 1)) * (T m * lunit)).
          { unfold rel. ring. }
          assert (e2 : 5 * cnt n * g == (5 * cnt n * (1 - rel)) * (T m * lunit)) by (unfold g, lo; ring).
          assert (hl1 : lval y - lo m <= 2 * rel * T m) by (unfold lo; lra).
          assert (h1 : 1 <= cnt n) by (change 1 with (cnt 1); apply cnt_le; exact Hn).
          assert (h5 : 4 * (cnt n - 1) <= 5 * cnt n * (1 - rel)).
          { assert (cnt n * rel <= cnt n * (1 # 32)) by (rewrite !(Qmult_comm (cnt n)); apply Qmult_le_compat_r; lra). lra. }
          assert (hp : 0 <= T m * lunit) by (apply Qmult_le_0_compat; [lra|apply Qlt_le_weak, lunit_pos]).
          assert ((4 * (cnt n - 1)) * (T m * lunit) <= (5 * cnt n * (1 - rel)) * (T m * lunit)) by (apply Qmult_le_compat_r; auto).
          lra. }
        assert (h : inject_Z (Qceiling q - 1) < 5 * cnt n) by lra.
        unfold cnt in h. change 5 with (inject_Z 5) in h. rewrite <- inject_Z_mult, <- Zlt_Qlt in h. lia. }
      exists (level m (Z.to_nat (Qceiling q))). split; [apply hin; lia|].
      assert (el : level m (Z.to_nat (Qceiling q)) == lo m + inject_Z (Qceiling q) * g).
      { unfold level, cnt. rewrite Z2Nat.id by auto. reflexivity. }
      assert (g1 : q * g <= inject_Z (Qceiling q) * g) by (apply Qmult_le_compat_r; lra).
      assert (hq1 : inject_Z (Qceiling q) < q + 1).
      { unfold Zminus in cu. rewrite inject_Z_plus in cu. change (inject_Z (- (1))) with (-1) in cu. lra. }
      assert (g2 : inject_Z (Qceiling q) * g < (q + 1) * g) by (apply Qmult_lt_r; auto).
      split; [lra|]. intros x hx hlt.
      pose proof (@fmt_gap Lt _ _ y x hy hx ltac:(lra) hlt) as hgap.
      assert (g <= lval y * lunit) by (unfold g; apply Qmult_le_compat_r; [exact hlo1|apply Qlt_le_weak, lunit_pos]).
      lra.
    - assert (hT0 : T m == 0) by lra. exists (level m 0). split; [apply hin; lia|].
      assert (e : level m 0 == 0).
      { unfold level, lo. change (cnt 0) with 0. rewrite hT0. ring. }
      rewrite hT0 in c1, c2. split; [lra|]. intros x hx hlt. lra.
  Qed.

  Lemma lower_lt m x y : length m = k -> inr n m -> 0 <= T m -> lfin y -> lclose (rel * T m) (T m) y -> lfin x ->
    lval y < lval x -> (lower (lval y) < lower (lval x))%nat.
  Proof.
    intros h1 h2 h0 h3 h4 h5 h6. destruct (level_between h1 h2 h0 h3 h4) as (p & p1 & p2 & p3). specialize (p3 x h5 h6).
    unfold lower. apply filter_lt_length with p; auto.
    - intros q _ hq. apply negb_true_iff in hq. apply negb_true_iff.
      destruct (Qle_bool (lval x) q) eqn:e; [|auto]. apply Qle_bool_iff in e.
      assert (lval y <= q) by lra. apply Qle_bool_iff in H. congruence.
    - apply negb_false_iff. apply Qle_bool_iff. exact p2.
    - apply negb_true_iff. destruct (Qle_bool (lval x) p) eqn:e; [|auto]. apply Qle_bool_iff in e. lra.
  Qed.

  Lemma lower_bound m y : length m = k -> inr n m -> 0 <= T m -> lfin y -> lclose (rel * T m) (T m) y ->
    (lower (lval y) < (5 * n + 1) * n ^ k)%nat.
  Proof.
    intros h1 h2 h0 h3 h4. destruct (level_between h1 h2 h0 h3 h4) as (p & p1 & p2 & _). rewrite <- length_levels. unfold lower.
    replace (length levels) with (length (filter (fun _ => true) levels)).
    2:{ f_equal. clear. generalize levels. intros l. induction l as [|a l IH]; cbn; congruence. }
    apply filter_lt_length with p; auto. apply negb_false_iff. apply Qle_bool_iff. exact p2.
  Qed.
End Levels.

Section Stop.
  Context {Nt : Type} `{HO : OrdLaws Nt} {Lt : Type} `{LF : LossFmt Lt} `{HFN : FromN Nt Lt}.
  Variable M : Mat Nt.
  Variable n : nat.
  Variable D : nat -> nat -> Nt.
  Hypothesis HD : diss_matrix M n D.
  Hypothesis HE : exact_in n D.
  Variable mx : Q.
  Hypothesis Hmx : forall x y, (x < n)%nat -> (y < n)%nat -> vals D x y <= mx.
  Hypothesis Hbig : 4 * cnt n * mx <= lbig.
  Hypothesis Hn : (1 <= n)%nat.
  Hypothesis Hn32 : 64 * cnt n * lunit <= 1.
  Notation v := (vals D).

  Lemma pass_stops k E cand order :
    (forall s j, (j < n)%nat -> core n D mx k s -> oks (cand s j) (cand_near n D mx E k s j)) ->
    (forall j, In j order -> (j < n)%nat) ->
    forall f f' s, core n D mx k s -> ((5 * n + 1) * n ^ k <= f)%nat -> ((5 * n + 1) * n ^ k <= f')%nat ->
      whileM f (pass cand order) s = whileM f' (pass cand order) s.
  Proof.
    intros hcand ho f f' s hc hf hf'.
    assert (hb : forall s, core n D mx k s -> lfin (fp_loss s) /\ length (fp_med s) = k /\ inr n (fp_med s) /\
      0 <= tdev v n (fp_med s) /\ lclose (rel n * tdev v n (fp_med s)) (tdev v n (fp_med s)) (fp_loss s)).
    { intros s0 [[i1 i2 i3 i4] g2 g3]. destruct (bracketed_rel HD HE Hmx Hbig Hn Hn32 i2 i3 g3) as (b1 & b2 & b3 & b4). auto. }
    apply whileM_stop with (I := core n D mx k) (mu := fun s => lower n k (tdev v n) (lval (fp_loss s))).
    - intros s0 s1 h0 e. unfold pass in e.
      set (st := mkFp (fp_med s0) (fp_data s0) (fp_rl s0) (fp_loss s0) (fp_last s0) (fp_swaps s0) (S (fp_iter s0))) in *.
      assert (hst : core n D mx k st) by (destruct h0 as [[a1 a2 a3 a4] b c]; constructor; auto; constructor; auto).
      assert (hfor : oks (forM cand order st) (core n D mx k)).
      { apply forM_inv; [exact hst|]. intros j s2 hj h2. eapply oks_mono; [apply hcand; auto|].
        intros [s3|s3]; [intros (h3 & _); exact h3|intros [-> _]; exact h2]. }
      apply oks_inv in hfor as (s2 & e2 & h2). rewrite e2 in e. cbn [bind] in e.
      destruct ((fp_swaps s2 =? fp_swaps s0)%nat || lleb (fp_loss s0) (fp_loss s2)) eqn:el; [discriminate|].
      injection e as <-. split; [exact h2|]. apply orb_false_iff in el as [_ el].
      destruct (hb _ h0) as (f0 & _). destruct (hb _ h2) as (f2 & l2 & i2 & t2 & c2).
      apply fmt_lleb_false in el; auto. eapply lower_lt; eauto.
    - exact hc.
    - destruct (hb _ hc) as (f0 & l0 & i0 & t0 & c0). pose proof (lower_bound Hn Hn32 _ l0 i0 t0 f0 c0). lia.
    - destruct (hb _ hc) as (f0 & l0 & i0 & t0 & c0). pose proof (lower_bound Hn Hn32 _ l0 i0 t0 f0 c0). lia.
  Qed.
End Stop.
