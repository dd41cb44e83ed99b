(** GroupPass.v -- on separated groups, one pass of fasterpam over all objects leaves one medoid in every group, in exact
    arithmetic and with rounded losses *)
From Coq Require Import ZArith QArith Qabs Lqa Lia Permutation.
From Verif Require Import Base Num M_Mat M_Util M_Fasterpam M_ParFasterpam M_Pam Hoare Spec SpecFacts Laws PamShape PamExact
  PamFacts FpFacts ParFacts FloatSil FloatLoss FloatMain FloatFmt FloatSwap FloatPar FloatSep Groups.
Set Implicit Arguments.
Open Scope nat_scope.

(** ** Passes, for any way to try a candidate *)
Section Pass.
  Context {Nt Lt : Type} `{NumL Lt}.
  Variables (n k : nat) (v : diss) (g : nat -> nat) (d s e : Q).
  Hypothesis HV : dissimilarity n v.
  Hypothesis HG : groups n k v g d s.
  Hypothesis HA : alike n v g d.
  Hypothesis Hk : 1 <= k.
  Hypothesis Hs : (inject_Z (Z.of_nat n) * d + e < s)%Q.
  Variable good : fpst Nt Lt -> Prop.
  Hypothesis good_med : forall st, good st -> length (fp_med st) = k /\ forall m, In m (fp_med st) -> m < n.
  Hypothesis good_iter : forall st i, good st ->
    good (mkFp (fp_med st) (fp_data st) (fp_rl st) (fp_loss st) (fp_last st) (fp_swaps st) i).
  Variable cand : fpst Nt Lt -> nat -> res (ctl (fpst Nt Lt)).

  (** no swap with [j] is worth more than [e], or one which is nearly the best and no loss is made *)
  Definition cand_group (st : fpst Nt Lt) (j : nat) (c : ctl (fpst Nt Lt)) : Prop :=
    match c with
    | Break st' => st' = st /\ j = fp_last st
    | Next st' => good st' /\ fp_iter st' = fp_iter st /\
        ((st' = st /\ forall b, b < length (fp_med st) -> (tdev v n (fp_med st) - e <= tdev v n (swap (fp_med st) b j))%Q) \/
         (fp_last st' = j /\ exists b, b < length (fp_med st) /\ fp_med st' = swap (fp_med st) b j /\
            (tdev v n (fp_med st') <= tdev v n (fp_med st) + e)%Q /\
            forall c, c < length (fp_med st) -> (tdev v n (fp_med st') <= tdev v n (swap (fp_med st) c j) + e)%Q))
    end.
  Hypothesis Hcand : forall st j, j < n -> good st -> oks (cand st j) (cand_group st j).
  Variable order : list nat.
  Hypothesis Ho : forall j, In j order -> j < n.
  Hypothesis Hnd : NoDup order.
  Hypothesis Hall : forall j, j < n -> In j order.

  Lemma pass_covers st0 : good st0 -> fp_last st0 = n \/ covers n g (fp_med st0) ->
    oks (forM cand order st0) (fun st => good st /\ fp_iter st = fp_iter st0 /\ covers n g (fp_med st)).
  Proof.
    intros hg0 h0.
    apply forM_oks with (I := fun pre st => good st /\ fp_iter st = fp_iter st0 /\
      (fp_last st = fp_last st0 \/ In (fp_last st) pre) /\
      (forall i, i < n -> has g (fp_med st0) i -> has g (fp_med st) i) /\
      (forall i, In i pre -> has g (fp_med st) i)).
    - split; [auto|]. split; [auto|]. split; [auto|]. split; [auto|]. intros i [].
    - intros pre j post st el (h1 & h2 & h3 & h4 & h5).
      assert (hj : j < n) by (apply Ho; rewrite el; apply in_or_app; simpl; auto).
      assert (hnd' : NoDup (pre ++ j :: post)) by (rewrite <- el; auto).
      destruct (good_med h1) as [m1 m2].
      eapply oks_mono; [apply (Hcand hj h1)|]. intros [st'|st'].
      + intros (q1 & q2 & q3). split; [exact q1|]. split; [congruence|]. destruct q3 as [[-> q3]|(q3 & b & b1 & b2 & b3 & b4)].
        * split; [destruct h3; [auto|right; apply in_or_app; auto]|]. split; [exact h4|].
          intros i hi. apply in_app_or in hi as [hi|[<-|[]]]; [auto|].
          exact (no_gain_has n k v g d s HV HG Hk (fp_med st) j e HA m1 m2 hj Hs q3).
        * split; [right; rewrite q3; apply in_or_app; simpl; auto|].
          assert (hkeep : forall i, i < n -> has g (fp_med st) i -> has g (fp_med st') i).
          { intros i hi hh. rewrite b2 in *. apply (swap_keeps n k v g d s HV HG Hk (fp_med st) b j e i); auto. }
          split; [auto|]. intros i hi. apply in_app_or in hi as [hi|[<-|[]]].
          -- apply hkeep; [|auto]. apply Ho. rewrite el. apply in_or_app. auto.
          -- exists j. split; [|reflexivity]. rewrite b2. apply in_swap_new.
      + intros [-> ej]. split; [auto|]. split; [auto|]. intros i hi. apply h4; [exact hi|].
        destruct h3 as [h3|h3].
        * destruct h0 as [h0|h0]; [lia|]. apply h0. exact hi.
        * exfalso. apply NoDup_remove_2 in hnd'. apply hnd', in_or_app. left. rewrite ej. exact h3.
    - intros st (h1 & h2 & h3 & h4 & h5). split; [auto|]. split; [auto|]. intros i hi. apply h5. apply Hall. exact hi.
  Qed.

  Lemma run_covers maxiter st0 : good st0 -> fp_last st0 = n -> 1 <= maxiter ->
    oks (whileM maxiter (pass cand order) st0) (fun st => good st /\ covers n g (fp_med st)).
  Proof.
    intros hg0 hl hm.
    apply whileM_oks with (I := fun i st => good st /\ (i = 0 /\ fp_last st = n \/ covers n g (fp_med st))).
    - split; auto.
    - intros i st hi [h1 h2]. unfold pass. eapply oks_bind; [apply pass_covers|].
      + apply good_iter. exact h1.
      + cbn [fp_last fp_med]. destruct h2 as [[_ h2]|h2]; auto.
      + intros st' (q1 & q2 & q3). destruct (_ || _); cbn [oks]; auto.
    - intros st [h1 [[h2 _]|h2]]; [lia|]. auto.
  Qed.
End Pass.

(** ** Exact arithmetic *)
Section Exact.
  Context {Nt Lt : Type} `{HLL : LossLaws Nt Lt}.
  Variables (M : Mat Nt) (n : nat) (D : nat -> nat -> Nt).
  Hypothesis HD : diss_matrix M n D.
  Notation v := (vals D).

  Lemma fp_cand_group k st j : 1 <= n -> 1 <= k -> j < n -> fp_good n D k st ->
    oks (fp_cand M st j) (cand_group n v 0 (fp_good (Lt := Lt) n D k) st j).
  Proof.
    intros hn hk hj hg. pose proof hg as [g1 g2 g3 g4 g5]. pose proof g1 as [i1 i2 i3 i4]. pose proof (proj1 HD) as HM.
    eapply oks_mono; [apply (fp_cand_ok HM hn hk hj g1)|]. intros c hc.
    assert (hfb : forall change b, find_best_swap M (fp_rl st) (fp_data st) j = Ok (change, b) ->
      b < length (fp_med st) /\
      (vL change == tdev v n (swap (fp_med st) b j) - tdev v n (fp_med st))%Q /\
      (forall c, c < length (fp_med st) ->
         (tdev v n (swap (fp_med st) b j) <= tdev v n (swap (fp_med st) c j))%Q)).
    { intros change b e.
      assert (hl : length (fp_rl st) = length (fp_med st)) by congruence.
      assert (hk' : 1 <= length (fp_med st)) by lia.
      pose proof (find_best_swap_ok HD i2 i3 hl hk' hj g4) as hb.
      apply oks_elim with (2 := e) in hb. destruct hb as (b1 & b2 & b3 & b4). auto. }
    destruct hc as [e1|r a e1 e2 e3 e4|ch b e1 e2 e3|r a ch b data' rl' loss' e1 e2 e3 e4 e5 e6 e7 e8 e9].
    - split; auto.
    - split; [auto|]. split; [auto|]. left. split; [auto|]. intros b hb.
      assert (hjin : In j (fp_med st)).
      { rewrite <- e4. apply nth_In. destruct (rec2_near (proj2 i3 j r e2)) as (a' & ea & ha). congruence. }
      pose proof (@tdev_swap_medoid v n _ b j hb hjin). lra.
    - split; [auto|]. split; [auto|]. left. split; [auto|].
      intros c hc. destruct (hfb _ _ e2) as (b1 & b2 & b3).
      apply lleb_spec in e3. rewrite vL_zero in e3. specialize (b3 c hc). lra.
    - destruct (hfb _ _ e5) as (b1 & b2 & b3).
      assert (hjm : ~ In j (fp_med st)) by eauto using own_not_in.
      assert (hg' := fp_swap_good HD j (S (fp_swaps st)) (fp_iter st) hn hk hj hg hjm e7 e8 e9).
      split; [exact hg'|]. split; [auto|]. right. cbn [fp_med fp_last]. split; [auto|].
      exists b. rewrite <- swap_set_nth by auto. split; [auto|]. split; [auto|].
      assert (hlt : (vL ch < 0)%Q).
      { apply Qnot_le_lt. intros hle. assert (hx : lleb lzero ch = true); [|congruence].
        apply lleb_spec. rewrite vL_zero. exact hle. }
      split; [lra|]. intros c hc. specialize (b3 c hc). lra.
  Qed.

  Lemma rand_fasterpam_covers g d s order med maxiter : sizes n (length med) -> medoids n (length med) med -> 2 <= length med ->
    groups n (length med) v g d s -> alike n v g d -> (inject_Z (Z.of_nat n) * d < s)%Q ->
    Permutation order (seq 0 n) -> 1 <= maxiter ->
    oks (rand_fasterpam (Lt := Lt) M order med maxiter) (fun r => covers n g (r_med r)).
  Proof.
    intros hs hm hk hgr ha hse hp hmi. pose proof (proj1 HD) as HM.
    destruct (fp_initial (Lt := Lt) HD hs hm hk) as (loss & data & rl & e1 & e2 & hg0).
    unfold rand_fasterpam, fasterpam_order. replace (length med =? 1) with false by (symmetry; apply Nat.eqb_neq; lia).
    rewrite e1. cbn [bind]. rewrite e2. cbn [bind]. rewrite (len_n HM).
    assert (hall : forall j, In j order <-> j < n).
    { intros j. rewrite (Permutation_in' (eq_refl j) hp), in_seq. lia. }
    destruct (emb_vals HD) as [hemb hdg].
    eapply oks_bind.
    - apply run_covers with (n := n) (k := length med) (v := v) (g := g) (d := d) (s := s) (e := 0%Q) (good := fp_good (Lt := Lt) n D (length med))
        (cand := fp_cand M) (order := order); auto.
      + apply (proj1 (emb_vals HD)).
      + lia.
      + lra.
      + intros st [[i1 i2 i3 i4] _ _ _ _]. auto.
      + intros st i [[] ? ? ? ?]. constructor; auto. constructor; auto.
      + intros st j hj hg. apply fp_cand_group; auto; lia.
      + intros j. apply hall.
      + eapply Permutation_NoDup; [symmetry; exact hp|apply seq_NoDup].
      + intros j. apply hall.
    - intros st [_ h]. exact h.
  Qed.
End Exact.

(** ** Rounded losses *)
Section Rounded.
  Context {Nt : Type} `{HO : OrdLaws Nt} {Lt : Type} `{LF : LossFmt Lt} `{HFN : FromN Nt Lt}.
  Variables (M : Mat Nt) (n : nat) (D : nat -> nat -> Nt) (mx e : Q).
  Hypothesis HD : diss_matrix M n D.
  Hypothesis HE : exact_in (Lt := Lt) n D.
  Hypothesis Hmx : forall x y, x < n -> y < n -> (vals D x y <= mx)%Q.
  Hypothesis Hbig : (4 * FloatSil.cnt n * mx <= lbig)%Q.
  Hypothesis Hn : 1 <= n.
  Hypothesis Hn32 : (64 * FloatSil.cnt n * lunit <= 1)%Q.
  Hypothesis He : (eps (Lt := Lt) n mx <= e)%Q.
  Hypothesis Hz : lfrom (nzero : Nt) = (lzero : Lt).
  Notation v := (vals D).
  Notation err := (err (Lt := Lt) n mx).
  Let HM : is_matrix M n D := proj1 HD.
  Let herr : (4 * err <= e)%Q.
  Proof. pose proof (eps_err (Lt := Lt) n mx). lra. Qed.
  Let hep : (0 <= err)%Q := err_pos (Lt := Lt) HD Hmx Hn.

  Lemma cand_sep_group E k st j c : (2 * E <= e)%Q -> (0 <= E)%Q ->
    cand_sep (Lt := Lt) n D mx E k st j c -> cand_group n v e (sep_good (Lt := Lt) n D mx k) st j c.
  Proof.
    intros hE hE0. destruct c as [s|s]; [|auto].
    intros (h1 & h2 & h3 & h4). split; [auto|]. split; [auto|].
    destruct h4 as [[-> h4]|(q1 & q2 & q3 & ch & b & (b1 & b2 & [b3 b3'] & b4) & b5 & b6)].
    - left. split; [auto|]. intros b hb. specialize (h4 b hb). unfold delta in h4. lra.
    - right. split; [auto|]. cbn [fst snd] in *. exists b. split; [auto|]. split; [auto|]. rewrite b6. unfold delta in *.
      split; [lra|]. intros c hc. specialize (b4 c hc). lra.
  Qed.

  Section Run.
    Variables (g : nat -> nat) (d s : Q) (order med : list nat) (maxiter : nat).
    Hypothesis hs : sizes n (length med).
    Hypothesis hm : medoids n (length med) med.
    Hypothesis hk : 2 <= length med.
    Hypothesis hgr : groups n (length med) v g d s.
    Hypothesis ha : alike n v g d.
    Hypothesis hse : (inject_Z (Z.of_nat n) * d + e < s)%Q.
    Hypothesis hp : Permutation order (seq 0 n).
    Hypothesis hmi : 1 <= maxiter.

    Lemma run_sep_covers cand E st0 : (2 * E <= e)%Q -> (0 <= E)%Q ->
      (forall st j, j < n -> sep_good (Lt := Lt) n D mx (length med) st -> oks (cand st j) (cand_sep n D mx E (length med) st j)) ->
      sep_good n D mx (length med) st0 -> fp_last st0 = n ->
      oks (whileM maxiter (pass cand order) st0) (fun st => sep_good n D mx (length med) st /\ covers n g (fp_med st)).
    Proof.
      intros hE hE0 hcand hg0 hl.
      assert (hall : forall j, In j order <-> j < n).
      { intros j. rewrite (Permutation_in' (eq_refl j) hp), in_seq. lia. }
      apply run_covers with (n := n) (k := length med) (v := v) (d := d) (s := s) (e := e); auto.
      - apply (proj1 (emb_vals HD)).
      - lia.
      - intros st [[[i1 i2 i3 i4] _ _] _ _]. auto.
      - intros st i [[[] ? ?] ? ?]. constructor; auto. constructor; auto. constructor; auto.
      - intros st j hj hg. eapply oks_mono; [apply hcand; auto|]. intros c. apply cand_sep_group with (E := E); auto.
      - intros j. apply hall.
      - eapply Permutation_NoDup; [symmetry; exact hp|apply seq_NoDup].
      - intros j. apply hall.
    Qed.

    Lemma rand_fasterpam_rounded : oks (rand_fasterpam (Lt := Lt) M order med maxiter) (fun r => covers n g (r_med r)).
    Proof.
      destruct hm as (_ & hnd & hin). destruct (emb_vals HD) as [hemb hdg].
      pose proof (initial_assignment_ok (Lt := Lt) HM hs hin hk) as h.
      apply oks_inv in h as ([loss data] & ei & hd & hsum & hown). cbn [fst snd] in *.
      pose proof (update_removal_loss_near HD HE Hmx Hbig Hn Hn32 _ hin hd (repeat_length (lzero : Lt) (length med))) as h.
      apply oks_inv in h as (rl & er & hrl & hrn).
      unfold rand_fasterpam, fasterpam_order. replace (length med =? 1) with false by (symmetry; apply Nat.eqb_neq; lia).
      rewrite ei. cbn [bind]. rewrite er. cbn [bind]. rewrite (len_n HM).
      eapply oks_bind.
      - apply run_sep_covers with (cand := fp_cand M) (E := err); auto; [lra| |].
        + intros st j hj hg. apply (fp_cand_sep HD HE Hmx Hbig Hn Hn32 Hz); auto. lia.
        + constructor; [constructor; [constructor|..]|..]; cbn [fp_med fp_data fp_rl fp_loss]; eauto.
          apply near_sum_bracketed. exact hsum.
      - intros st [_ h]. exact h.
    Qed.

    Lemma par_fasterpam_rounded orc : oracle_ok orc ->
      oks (par_fasterpam (Lt := Lt) M orc order med maxiter) (fun r => covers n g (r_med r)).
    Proof.
      intros hor. destruct hm as (_ & hnd & hin). destruct (emb_vals HD) as [hemb hdg].
      destruct (par_initial_data (Lt := Lt) HD (o_init orc) hs hin hk) as (loss & loss' & data & e1 & e' & hls).
      pose proof (initial_assignment_ok (Lt := Lt) HM hs hin hk) as h. apply oks_elim with (2 := e1) in h.
      destruct h as (hd & _ & hown). cbn [snd] in *.
      pose proof (update_removal_loss_near HD HE Hmx Hbig Hn Hn32 _ hin hd (repeat_length (lzero : Lt) (length med))) as h.
      apply oks_inv in h as (rl & er & hrl & hrn).
      unfold par_fasterpam. replace (length med =? 1) with false by (symmetry; apply Nat.eqb_neq; lia).
      rewrite e'. cbn [bind]. rewrite er. cbn [bind]. rewrite (len_n HM).
      eapply oks_bind.
      - apply run_sep_covers with (cand := par_cand M orc) (E := (2 * err)%Q); auto; [lra|lra| |].
        + intros st j hj hg. apply (par_cand_sep HD HE Hmx Hbig Hn Hn32 Hz); auto. lia.
        + constructor; [constructor; [constructor|..]|..]; cbn [fp_med fp_data fp_rl fp_loss]; eauto.
          apply treduce_bracketed with (o_init orc). exact hls.
      - intros st [_ h]. exact h.
    Qed.
  End Run.
End Rounded.
