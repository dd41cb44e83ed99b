(** FloatPam.v -- the result of PAM with rounded losses: medoids and assignment fit together, from the medoids of BUILD *)
From Coq Require Import ZArith QArith Lqa Lia.
From Verif Require Import Base Num M_Mat M_Util M_Fasterpam M_ParFasterpam M_Pam Hoare Spec SpecFacts Laws
  PamShape PamExact PamFacts PamMain ParFacts FloatMain FloatSil FloatLoss FloatFmt FloatSwap FloatBuild.
Set Implicit Arguments.
Open Scope nat_scope.

Section Swap.
  Context {Nt : Type} `{HO : OrdLaws Nt} {Lt : Type} `{HL : NumL Lt} `{HFN : FromN Nt Lt}.
  Variables (M : Mat Nt) (n : nat) (D : nat -> nat -> Nt).
  Hypothesis HD : diss_matrix M n D.
  Hypothesis zz : lltb (lzero : Lt) lzero = false.

  (** no other assumption on the losses, not even on the one given *)
  Lemma swap_best_pf k (st : pst Nt Lt) rl best : 1 <= n -> pf_inv n D k st -> best_new n st best ->
    oks (swap_best M st rl best) (fun c => match c with Next s | Break s => pf_inv n D k s end).
  Proof.
    intros hn hi hb. pose proof (proj1 HD) as HM. destruct (emb_vals HD) as [he hg].
    pose proof hi as [[i1 i2 i3] hnd hown]. unfold swap_best.
    destruct (lltb (fst best) lzero) eqn:e.
    - destruct (snd best) as [[b j]|] eqn:es.
      + unfold best_new in hb. rewrite es in hb. destruct hb as (hb & hj & hjm).
        pose proof (do_swap_ok (Lt := Lt) HM hn i2 hj hb i3) as hs.
        apply oks_inv in hs as ([[med' data'] loss'] & -> & -> & hd & s2 & s3 & s4). cbn [bind].
        assert (hi' : forall l, pf_inv n D k (mkP (set_nth (p_med st) b j) data' rl l (S (p_swaps st)) (p_iter st))).
        { intros l. constructor; cbn [p_med p_data].
          - constructor; cbn [p_med p_data]; auto; [rewrite length_set_nth; auto|apply inr_set_nth; auto].
          - apply NoDup_set_nth; auto.
          - eapply s4; eauto. }
        destruct (lleb (p_loss st) loss'); cbn [oks]; apply hi'.
      + unfold best_new in hb. rewrite es in hb. congruence.
    - cbn [oks]. constructor; auto. constructor; auto.
  Qed.

  Lemma pam_pf k maxiter (st : pst Nt Lt) : 1 <= n -> pf_inv n D k st ->
    oks (whileM maxiter (pam_iteration M) st) (pf_inv n D k).
  Proof.
    intros hn hi. pose proof (proj1 HD) as HM.
    apply whileM_oks with (I := fun _ st => pf_inv n D k st); [auto| |auto].
    clear st hi. intros i st hlt hi. unfold pam_iteration.
    cbn [p_med p_data p_rl p_loss p_swaps p_iter].
    set (st1 := mkP (p_med st) (p_data st) (p_rl st) (p_loss st) (p_swaps st) (S (p_iter st))).
    pose proof hi as [[i1 i2 i3] hnd hown].
    assert (hi1 : pf_inv n D k st1) by (constructor; auto; constructor; auto).
    eapply oks_bind with (P := best_new n st1).
    - apply foldM_inv; [reflexivity|]. intros j best hj hb. apply in_seq in hj.
      rewrite (len_n HM) in hj. apply (pam_cand_new HD) with (k := k) (st := st1); auto; lia.
    - intros best hb. eapply oks_mono; [apply (@swap_best_pf k st1); auto|].
      intros [s|s] h; auto.
  Qed.
End Swap.

Section Pam.
  Context {Nt : Type} `{HO : OrdLaws Nt} {Lt : Type} `{LF : LossFmt Lt} `{HFN : FromN Nt Lt}.
  Variables (M : Mat Nt) (n : nat) (D : nat -> nat -> Nt) (mx : Q).
  Hypothesis HD : diss_matrix M n D.
  Hypothesis HE : exact_in (Lt := Lt) n D.
  Hypothesis Hmx : forall x y, x < n -> y < n -> (vals D x y <= mx)%Q.
  Hypothesis Hbig : (4 * FloatSil.cnt n * mx <= lbig)%Q.
  Hypothesis Hn : 1 <= n.
  Hypothesis Hn32 : (64 * FloatSil.cnt n * lunit <= 1)%Q.

  Lemma pam_fits k maxiter : sizes n k ->
    exists (loss : Lt) assi meds r, pam_build M k = Ok (loss, assi, meds) /\ pam M k maxiter = Ok r /\
      length (r_med r) = length meds /\ fits n D (length meds) (r_med r) (r_assi r).
  Proof.
    intros hs. assert (hk : 1 <= k) by (destruct hs; lia).
    pose proof (pam_build_near HD HE Hmx Hbig Hn Hn32 hk) as h. apply oks_inv in h as (st & ebb & l & hl & hg & hzero).
    assert (eb : pam_build M k = Ok (b_loss st, assignment_of (b_data st), b_meds st)).
    { unfold pam_build. rewrite (check_input_ok (proj1 HD) hs). cbn [bind]. rewrite ebb. reflexivity. }
    assert (ep' : forall f, pam M k f = pam_optimize M (b_meds st) (b_data st) f (b_loss st)).
    { intros f. unfold pam. rewrite (check_input_ok (proj1 HD) hs). cbn [bind]. rewrite ebb. reflexivity. }
    pose proof hg as [h1 h2 h3 h4 h5 h6 h7].
    destruct (Nat.eq_dec l 1) as [->|hl2].
    - assert (hlen : length (b_meds st) = 1) by exact h1.
      pose proof (single_fits (Lt := Lt) HD hlen h2) as hsm. apply oks_inv in hsm as (r & er' & hf).
      exists (b_loss st), (assignment_of (b_data st)), (b_meds st), r. split; [exact eb|].
      split; [rewrite ep'; unfold pam_optimize; rewrite hlen; exact er'|]. rewrite hlen.
      split; [apply hf|exact hf].
    - assert (hl2' : 2 <= l) by lia.
      pose proof (build_pf HD Hn hl2' hg) as hpf.
      pose proof (pam_pf HD fmt_zz maxiter Hn hpf) as h.
      apply oks_inv in h as (s & es & h). pose proof h as [[i1 i2 i3] hnd hown].
      exists (b_loss st), (assignment_of (b_data st)), (b_meds st),
        (mkPR (p_loss s) (assignment_of (p_data s)) (p_iter s) (p_swaps s) (p_med s)).
      split; [exact eb|]. split.
      { rewrite ep'. unfold pam_optimize. replace (length (b_meds st) =? 1) with false by (symmetry; apply Nat.eqb_neq; lia).
        rewrite es. reflexivity. }
      cbn [r_med r_assi]. rewrite h1. split; [exact i1|]. rewrite <- i1. apply (data_fits HD); auto.
  Qed.
End Pam.
