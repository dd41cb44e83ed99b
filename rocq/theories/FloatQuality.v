(** FloatQuality.v -- rounding: what the PAM algorithms return, for losses in any format of FloatFmt.v.
    The statements about binary64 (C61, C62, C64) and about f32 losses (C68) are instances. *)
From Coq Require Import ZArith QArith Qabs Lqa Lia Permutation.
From Verif Require Import Base Num M_Mat M_Util M_Fasterpam M_ParFasterpam M_Pam M_Alternating Hoare Spec SpecFacts Laws
  PamShape PamExact PamFacts PamMain ParFacts FloatMain FloatSil FloatLoss FloatFmt FloatSwap FloatPar FloatBuild Approx Term ChooseFacts AltFacts.
Open Scope nat_scope.

(** no swap of one medoid lowers the total deviation by more than [e] *)
Definition nearly_optimal (v : diss) (n : nat) (med : list nat) (e : Q) : Prop :=
  forall b j, b < length med -> j < n -> (tdev v n med - e <= tdev v n (swap med b j))%Q.
(** every medoid is, up to [e], the one which lowers the total deviation most *)
Definition nearly_greedy (v : diss) (n : nat) (meds : list nat) (e : Q) : Prop :=
  forall i y, i < length meds -> y < n ->
    (tdev v n (firstn (S i) meds) <= tdev v n (firstn i meds ++ [y]) + e)%Q.
(** within a factor of five of the optimum, up to [e] *)
Definition five_up_to (v : diss) (n k : nat) (e : Q) (med : list nat) : Prop :=
  forall opt, 1 <= length opt <= k -> (forall m, In m opt -> m < n) ->
    (tdev v n med <= 5 * tdev v n opt + inject_Z (Z.of_nat k + 1) * e)%Q.

Lemma nearly_le v n med e e' : (e <= e')%Q -> nearly_optimal v n med e -> nearly_optimal v n med e'.
Proof. intros h h' b j hb hj. specialize (h' b j hb hj). lra. Qed.

Lemma nearly_five v n k e med : metric n v -> length med = k -> (forall m, In m med -> m < n) -> (0 <= e)%Q ->
  nearly_optimal v n med e -> five_up_to v n k e med.
Proof.
  intros hm hl hin he h opt ho hino.
  pose proof (five_times_slack (v := v) (n := n) med opt (e := e) hm hin hino ltac:(rewrite hl; exact ho) h) as h5.
  rewrite hl in h5. rewrite inject_Z_plus. change (inject_Z 1) with 1%Q. lra.
Qed.

Section Quality.
  Context {Nt : Type} `{HO : OrdLaws Nt} {Lt : Type} `{LF : LossFmt Lt} `{HFN : FromN Nt Lt}.
  Variables (M : Mat Nt) (n : nat) (D : nat -> nat -> Nt) (mx e : Q).
  Hypothesis HD : diss_matrix M n D.
  Hypothesis HE : exact_in (Lt := Lt) n D.
  Hypothesis Hmx : forall x y, x < n -> y < n -> (vals D x y <= mx)%Q.
  Hypothesis Hbig : (4 * FloatSil.cnt n * mx <= lbig)%Q.
  Hypothesis Hn : 1 <= n.
  Hypothesis Hn32 : (64 * FloatSil.cnt n * lunit <= 1)%Q.
  (** the permitted error *)
  Hypothesis He : (eps (Lt := Lt) n mx <= e)%Q.
  Hypothesis Hz : lfrom (nzero : Nt) = (lzero : Lt).
  Let v := vals D.

  Definition off_in (e q : Q) (x : Lt) : Prop := (Qabs (lval x - q) <= e)%Q.

  (** nearly optimal, or one swap away from nearly optimal medoids with nearly the same total deviation *)
  Definition stops_in (k : nat) (r : pam_result Lt) : Prop :=
    exists med0, medoids n k med0 /\ nearly_optimal v n med0 e /\
      (r_med r = med0 \/ exists b j, b < k /\ j < n /\ r_med r = swap med0 b j) /\
      (Qabs (tdev v n (r_med r) - tdev v n med0) <= e)%Q /\ off_in e (tdev v n med0) (r_loss r).

  Definition stalled_in (run : nat -> res (pam_result Lt)) (r : pam_result Lt) : Prop :=
    exists i r0, r_iter r = S i /\ run i = Ok r0 /\ (lval (r_loss r0) <= lval (r_loss r))%Q.

  Lemma err_e : (4 * err (Lt := Lt) n mx <= e)%Q.
  Proof. pose proof (eps_err (Lt := Lt) n mx). lra. Qed.
  Lemma e_pos : (0 <= e)%Q.
  Proof. pose proof err_e. pose proof (err_pos (Lt := Lt) HD Hmx Hn). lra. Qed.

  Lemma close_off_in x (y : Lt) : lclose (err (Lt := Lt) n mx) x y -> off_in e x y.
  Proof.
    pose proof err_e. pose proof (err_pos (Lt := Lt) HD Hmx Hn). intros [h1 h2]. apply Qabs_Qle_condition. lra.
  Qed.

  Lemma ended_quality k maxiter med (L0 : Lt) (st : pst Nt Lt) assi sw :
    ended n D mx k maxiter L0 st -> (lval L0 <= tdev v n med + e)%Q ->
    let r := mkPR (p_loss st) assi (p_iter st) sw (p_med st) in
    (tdev v n (r_med r) <= tdev v n med + 3 * e)%Q /\ (r_iter r < maxiter -> stops_in k r).
  Proof.
    intros (h1 & h2 & h3) hL. unfold v in *. cbn [r_med r_iter]. split; [lra|].
    intros hlt. destruct (h3 hlt) as (med0 & a1 & a2 & a3 & [a4 a4'] & a5 & a6). exists med0. cbn [r_med r_loss].
    split; [auto|]. split; [eapply nearly_le; [|exact a2]; lra|]. split; [auto|].
    split; [apply Qabs_Qle_condition; unfold v; lra|]. apply Qabs_Qle_condition. unfold v. lra.
  Qed.

  Lemma stops_five_in k r : metric n v -> stops_in k r -> five_up_to v n k e (r_med r).
  Proof.
    intros hm (med0 & (m1 & m2 & m3) & h2 & _ & h4 & _) opt hl hin. apply Qabs_Qle_condition in h4.
    pose proof (five_times_slack (v := v) (n := n) med0 opt (e := e) hm m3 hin ltac:(rewrite m1; exact hl) h2) as h.
    rewrite m1 in h. rewrite inject_Z_plus. change (inject_Z 1) with 1%Q. lra.
  Qed.

  Lemma fastpam1_pam_quality med maxiter : sizes n (length med) -> (forall m, In m med -> m < n) -> NoDup med -> 2 <= length med ->
    exists r1 r2 : pam_result Lt, fastpam1 M med maxiter = Ok r1 /\ pam_swap M med maxiter = Ok r2 /\
      forall r, r = r1 \/ r = r2 ->
        (tdev v n (r_med r) <= tdev v n med + 3 * e)%Q /\ (r_iter r < maxiter -> stops_in (length med) r).
  Proof.
    intros hs hin hnd hk. pose proof (proj1 HD) as HM. destruct (emb_vals HD) as [hemb hg].
    pose proof (initial_assignment_ok (Lt := Lt) HM hs hin hk) as h.
    apply oks_inv in h as ([loss data] & ei & hd & hsum & hown). cbn [fst snd] in *.
    assert (hi : forall rl, pf_inv n D (length med) (mkP med data rl loss 0 0)).
    { intros rl. constructor; cbn [p_med p_data]; eauto. constructor; auto. }
    destruct (near_sum_close HD HE Hmx Hbig Hn Hn32 hin hd hsum) as [_ [l1 l2]].
    assert (hL : (lval loss <= tdev v n med + e)%Q).
    { pose proof (lerr_err (Lt := Lt) n mx) as g1. pose proof err_e as g2.
      pose proof (err_pos (Lt := Lt) HD Hmx Hn) as g3. unfold v. lra. }
    assert (hnl : forall rl, FloatSwap.near_loss n D mx (mkP med data rl loss 0 0)).
    { intros rl. eapply (near_sum_loss HD HE Hmx Hbig Hn Hn32); [apply (hi rl)|exact hsum]. }
    assert (h1 : oks (whileM maxiter (fastpam1_iteration M) (mkP med data (repeat lzero (length med)) loss 0 0))
      (ended n D mx (length med) maxiter loss)).
    { apply (fastpam1_near HD HE Hmx Hbig Hn Hn32 Hz (k := length med) maxiter (st := mkP med data (repeat lzero (length med)) loss 0 0));
        auto; [lia|apply repeat_length]. }
    assert (h2 : oks (whileM maxiter (pam_iteration M) (mkP med data [] loss 0 0)) (ended n D mx (length med) maxiter loss)).
    { apply (pam_near HD HE Hmx Hbig Hn Hn32 Hz (k := length med) maxiter (st := mkP med data [] loss 0 0)); auto. }
    apply oks_inv in h1 as (s1 & e1 & h1). apply oks_inv in h2 as (s2 & e2 & h2).
    exists (mkPR (p_loss s1) (assignment_of (p_data s1)) (p_iter s1) (p_swaps s1) (p_med s1)),
           (mkPR (p_loss s2) (assignment_of (p_data s2)) (p_iter s2) (p_swaps s2) (p_med s2)).
    assert (hk1 : (length med =? 1) = false) by (apply Nat.eqb_neq; lia).
    split; [unfold fastpam1; rewrite hk1, ei; cbn [bind]; rewrite e1; reflexivity|].
    split; [unfold pam_swap; rewrite ei; cbn [bind]; unfold pam_optimize; rewrite hk1, e2; reflexivity|].
    intros r [->| ->]; eapply ended_quality; eauto.
  Qed.

  (** passes over the candidates *)
  Definition pass_quality (run : nat -> res (pam_result Lt)) (med : list nat) (maxiter : nat) (r : pam_result Lt) : Prop :=
    (tdev v n (r_med r) <= tdev v n med + inject_Z (Z.of_nat n + 1) * e)%Q /\
    (r_swaps r = 0 -> 1 <= maxiter -> nearly_optimal v n (r_med r) e) /\
    (r_iter r < maxiter -> nearly_optimal v n (r_med r) e \/ stalled_in run r).

  Lemma pass_quality_ok order med maxiter (run : nat -> res (pam_result Lt)) cand E data rl loss :
    sizes n (length med) -> (forall m, In m med -> m < n) -> Permutation order (seq 0 n) ->
    (0 <= E)%Q -> (E <= 2 * err (Lt := Lt) n mx)%Q ->
    (forall s j, j < n -> core n D mx (length med) s -> oks (cand s j) (cand_near n D mx E (length med) s j)) ->
    core n D mx (length med) (mkFp med data rl loss n 0 0) ->
    (forall f, run f = bind (whileM f (pass cand order) (mkFp med data rl loss n 0 0))
      (fun st => Ok (mkPR (fp_loss st) (assignment_of (fp_data st)) (fp_iter st) (fp_swaps st) (fp_med st)))) ->
    exists r, run maxiter = Ok r /\ pass_quality run med maxiter r.
  Proof.
    intros hs hin hp hE1 hE2' hcand hc hrun.
    pose proof err_e as g2. pose proof (err_pos (Lt := Lt) HD Hmx Hn) as g3.
    assert (hE2 : (E <= e)%Q) by lra.
    assert (hk : 1 <= length med) by (destruct hs; lia).
    assert (hall : forall j, In j order <-> j < n).
    { intros j. rewrite (Permutation_in' (eq_refl j) hp), in_seq. lia. }
    assert (hndo : NoDup order) by (eapply Permutation_NoDup; [symmetry; exact hp|apply seq_NoDup]).
    destruct (bracketed_close HD HE Hmx Hbig Hn Hn32 hin (fi_data (co_inv hc)) (co_sum hc)) as [_ [l1 l2]]. cbn [fp_loss fp_med] in l1, l2.
    pose proof (fp_run_near HD HE Hmx Hbig Hn Hn32 hk hE1 cand hcand (order := order) (fun j hj => proj1 (hall j) hj) hndo
      (fun j hj => proj2 (hall j) hj) maxiter hc eq_refl eq_refl eq_refl) as h.
    apply oks_inv in h as (s & es & h1 & h2 & h3). rewrite hrun, es. cbn [bind]. eexists. split; [reflexivity|].
    unfold pass_quality. cbn [r_med r_swaps r_iter fp_loss] in *. pose proof (lerr_err (Lt := Lt) n mx) as g1.
    assert (gc : (FloatSil.cnt n * E <= FloatSil.cnt n * e)%Q).
    { rewrite !(Qmult_comm (FloatSil.cnt n)). apply Qmult_le_compat_r; [auto|apply FloatSil.cnt_pos]. }
    split.
    { rewrite inject_Z_plus. change (inject_Z (Z.of_nat n)) with (FloatSil.cnt n). change (inject_Z 1) with 1%Q. unfold v. lra. }
    split.
    { intros hz0 h1m. eapply nearly_le; [exact hE2|exact (h2 hz0 h1m)]. }
    intros hlt. destruct (h3 hlt) as [h4|(i & s1 & a1 & a2 & a3)].
    - left. eapply nearly_le; [exact hE2|exact h4].
    - right. eexists i, _. rewrite hrun, a2. split; [exact a1|]. split; [reflexivity|]. exact a3.
  Qed.

  Lemma fasterpam_quality order med maxiter : sizes n (length med) -> (forall m, In m med -> m < n) -> 2 <= length med ->
    Permutation order (seq 0 n) ->
    exists r : pam_result Lt, rand_fasterpam M order med maxiter = Ok r /\
      pass_quality (rand_fasterpam M order med) med maxiter r.
  Proof.
    intros hs hin hk hp. pose proof (proj1 HD) as HM.
    pose proof (initial_assignment_ok (Lt := Lt) HM hs hin hk) as h.
    apply oks_inv in h as ([loss data] & ei & hd & hsum & hown). cbn [fst snd] in *.
    pose proof (update_removal_loss_near HD HE Hmx Hbig Hn Hn32 _ hin hd (repeat_length (lzero : Lt) (length med))) as h.
    apply oks_inv in h as (rl & er & hrl & hrn).
    pose proof (err_pos (Lt := Lt) HD Hmx Hn) as g3.
    apply pass_quality_ok with (order := order) (cand := fp_cand M) (E := err (Lt := Lt) n mx) (data := data) (rl := rl) (loss := loss); auto; try lra.
    - intros s j hj hc. apply (fp_cand_near HD HE Hmx Hbig Hn Hn32 Hz); auto. lia.
    - constructor; [constructor|..]; auto. apply near_sum_bracketed. exact hsum.
    - intros f. unfold rand_fasterpam, fasterpam_order.
      replace (length med =? 1) with false by (symmetry; apply Nat.eqb_neq; lia).
      rewrite ei. cbn [bind]. rewrite er. cbn [bind]. rewrite (len_n HM). reflexivity.
  Qed.

  Lemma par_quality orc order med maxiter : sizes n (length med) -> (forall m, In m med -> m < n) -> 2 <= length med ->
    Permutation order (seq 0 n) -> oracle_ok orc ->
    exists r : pam_result Lt, par_fasterpam M orc order med maxiter = Ok r /\
      pass_quality (par_fasterpam M orc order med) med maxiter r.
  Proof.
    intros hs hin hk hp hor.
    destruct (par_start HD HE Hmx Hbig Hn Hn32 orc hs hin hk) as (loss & data & rl & hc & hrun).
    pose proof (err_pos (Lt := Lt) HD Hmx Hn) as g3.
    apply pass_quality_ok with (order := order) (cand := par_cand M orc) (E := (2 * err (Lt := Lt) n mx)%Q)
      (data := data) (rl := rl) (loss := loss); auto; try lra.
    intros s j hj hs'. apply (par_cand_near HD HE Hmx Hbig Hn Hn32 Hz); auto. lia.
  Qed.

  Lemma par_fuel orc order med : sizes n (length med) -> (forall m, In m med -> m < n) -> 2 <= length med ->
    (forall j, In j order -> j < n) -> oracle_ok orc ->
    forall f f', (5 * n + 1) * n ^ length med <= f -> (5 * n + 1) * n ^ length med <= f' ->
      par_fasterpam (Lt := Lt) M orc order med f = par_fasterpam M orc order med f'.
  Proof.
    intros hs hin hk ho hor f f' hf hf'.
    destruct (par_start HD HE Hmx Hbig Hn Hn32 orc hs hin hk) as (loss & data & rl & hc & hrun).
    rewrite !hrun. f_equal.
    apply (pass_stops HD HE Hmx Hbig Hn Hn32 (k := length med) (2 * err (Lt := Lt) n mx)%Q); auto.
    intros s j hj hs'. apply (par_cand_near HD HE Hmx Hbig Hn Hn32 Hz); auto. lia.
  Qed.

  (** BUILD *)
  Lemma build_quality k : sizes n k ->
    exists loss assi meds, pam_build (Lt := Lt) M k = Ok (loss, assi, meds) /\
      1 <= length meds <= k /\ medoids n (length meds) meds /\
      (length meds = k \/ (tdev v n meds == 0)%Q) /\
      nearly_greedy v n meds e /\ off_in e (tdev v n meds) loss /\
      length assi = n /\ (forall o, o < n -> nearest v o meds (nth o assi 0)).
  Proof.
    intros hs. assert (hk : 1 <= k) by (destruct hs; lia).
    pose proof (pam_build_near HD HE Hmx Hbig Hn Hn32 hk) as h. apply oks_inv in h as (st & eb & l & hl & hg & hz).
    destruct (build_assi_near HD Hn (proj1 hl) hg) as [a1 a2]. destruct hg as [h1 h2 h3 h4 h5 h6 h7].
    pose proof err_e as er. pose proof (err_pos (Lt := Lt) HD Hmx Hn) as ep.
    exists (b_loss st), (assignment_of (b_data st)), (b_meds st).
    split; [unfold pam_build; rewrite (check_input_ok (proj1 HD) hs); cbn [bind]; rewrite eb; reflexivity|].
    rewrite h1. split; [auto|]. split; [split; auto|]. split; [auto|].
    split; [intros i y hi hy; specialize (h7 i y hi hy); unfold v; lra|].
    split; [|auto]. apply (close_2n HD Hmx Hn) in h6 as [_ h6]. apply close_off_in. exact h6.
  Qed.

  Lemma pam_quality k maxiter : sizes n k ->
    exists loss assi meds (r : pam_result Lt), pam_build M k = Ok (loss, assi, meds) /\ pam M k maxiter = Ok r /\
      (2 <= length meds -> (tdev v n (r_med r) <= tdev v n meds + 3 * e)%Q /\
         (r_iter r < maxiter -> stops_in (length meds) r)) /\
      (length meds = 1 -> pam_swap M meds maxiter = Ok r).
  Proof.
    intros hs. assert (hk : 1 <= k) by (destruct hs; lia).
    pose proof (pam_build_near HD HE Hmx Hbig Hn Hn32 hk) as h. apply oks_inv in h as (st & ebb & l & hl & hg & hzero).
    pose proof err_e as er. pose proof (err_pos (Lt := Lt) HD Hmx Hn) as ep.
    assert (eb : pam_build M k = Ok (b_loss st, assignment_of (b_data st), b_meds st)).
    { unfold pam_build. rewrite (check_input_ok (proj1 HD) hs). cbn [bind]. rewrite ebb. reflexivity. }
    assert (ep' : forall f, pam M k f = pam_optimize M (b_meds st) (b_data st) f (b_loss st)).
    { intros f. unfold pam. rewrite (check_input_ok (proj1 HD) hs). cbn [bind]. rewrite ebb. reflexivity. }
    pose proof hg as [h1 h2 h3 h4 h5 h6 h7].
    destruct (Nat.eq_dec l 1) as [->|hl2].
    - assert (hlen : length (b_meds st) = 1) by exact h1.
      destruct (b_meds st) as [|x [|y ms]] eqn:em; try discriminate.
      assert (hx : x < n) by (apply h2; simpl; auto).
      assert (hs1 : sizes n 1) by (unfold sizes in hs |- *; lia).
      destruct (single_all (Lt := Lt) (proj1 HD) maxiter [] (mkOracle RSeq (fun _ _ => mkSched 1 [0]) (fun _ _ => RSeq)) hs1 hx) as (_ & _ & _ & _ & es).
      assert (hin : inr n [x]) by (intros m [<-|[]]; auto).
      pose proof (single_medoid_near HD HE Hmx Hbig Hn Hn32 (med := [x]) eq_refl hin) as hsm.
      apply oks_inv in hsm as (r & er' & _).
      exists (b_loss st), (assignment_of (b_data st)), [x], r. split; [exact eb|].
      split; [rewrite ep'; exact er'|]. split; [cbn [length]; lia|]. intros _. rewrite es. exact er'.
    - assert (hl2' : 2 <= l) by lia.
      pose proof (build_pf HD Hn hl2' hg) as hpf.
      apply (close_2n HD Hmx Hn) in h6 as [lf [l1 l2]].
      assert (hnl : FloatSwap.near_loss n D mx (mkP (b_meds st) (b_data st) [] (b_loss st) 0 0)) by (split; [exact lf|split; [exact l1|exact l2]]).
      pose proof (pam_near HD HE Hmx Hbig Hn Hn32 Hz maxiter hpf hnl eq_refl) as h.
      apply oks_inv in h as (s & es & h). cbn [p_loss] in h.
      exists (b_loss st), (assignment_of (b_data st)), (b_meds st),
        (mkPR (p_loss s) (assignment_of (p_data s)) (p_iter s) (p_swaps s) (p_med s)).
      split; [exact eb|]. split.
      { rewrite ep'. unfold pam_optimize. replace (length (b_meds st) =? 1) with false by (symmetry; apply Nat.eqb_neq; lia).
        rewrite es. reflexivity. }
      split; [|lia]. intros _. rewrite h1.
      apply (ended_quality l maxiter (b_meds st) (b_loss st) s (assignment_of (p_data s)) (p_swaps s) h). unfold v. lra.
  Qed.

  (** a single medoid *)
  Definition best_single_in (m : res (pam_result Lt)) : Prop :=
    exists r best, m = Ok r /\ r_med r = [best] /\ best < n /\
      (forall j, j < n -> (row_total v n best <= row_total v n j + e)%Q) /\
      off_in e (row_total v n best) (r_loss r) /\ r_assi r = repeat 0 n /\ r_iter r = 1.

  Lemma single_quality y : y < n -> best_single_in (single_medoid M [y]).
  Proof.
    intros hy. assert (hin : inr n [y]) by (intros z [<-|[]]; auto).
    pose proof (single_medoid_near HD HE Hmx Hbig Hn Hn32 (med := [y]) eq_refl hin) as h.
    apply oks_inv in h as (r & eq & h1 & h2 & best & h3 & h4 & h5 & h6). exists r, best.
    pose proof err_e as er. pose proof (err_pos (Lt := Lt) HD Hmx Hn) as ep.
    split; [exact eq|]. split; [exact h4|]. split; [exact h3|]. split; [|split; [|auto]].
    - intros j hj. specialize (h6 j hj). unfold row_sum in h6. unfold row_total, v. lra.
    - apply close_off_in. exact h5.
  Qed.

  Lemma pam_single maxiter : sizes n 1 -> exists y, y < n /\ pam (Lt := Lt) M 1 maxiter = single_medoid M [y].
  Proof.
    intros hs.
    pose proof (pam_build_near HD HE Hmx Hbig Hn Hn32 (le_n 1)) as h. apply oks_inv in h as (st & eb & l & hl & hg & _).
    assert (l = 1) as -> by lia. destruct hg as [h1 h2 _ _ _ _ _].
    unfold pam. rewrite (check_input_ok (proj1 HD) hs). cbn [bind]. rewrite eb. cbn [bind].
    destruct (b_meds st) as [|y [|z ms]]; try discriminate. exists y. split; [apply h2; simpl; auto|reflexivity].
  Qed.

  Lemma single_pam_quality x maxiter order orc : sizes n 1 -> x < n ->
    forall m, In m [fasterpam M [x] maxiter; rand_fasterpam M order [x] maxiter; par_fasterpam M orc order [x] maxiter;
        fastpam1 M [x] maxiter; pam_swap M [x] maxiter; pam M 1 maxiter] -> best_single_in m.
  Proof.
    intros hs hx m hm.
    destruct (single_all (Lt := Lt) (proj1 HD) maxiter order orc hs hx) as (e1 & e2 & e3 & e4 & e5).
    destruct (pam_single maxiter hs) as (y & hy & e10). pose proof single_quality as G.
    cbn [In] in hm. repeat (destruct hm as [<-|hm]); try contradiction; try (rewrite ?e1, ?e2, ?e3, ?e4, ?e5; auto; fail).
    rewrite e10. auto.
  Qed.

  (** alternating *)
  Lemma alternating_quality med maxiter : sizes n (length med) -> medoids n (length med) med ->
    exists r : pam_result Lt, alternating M med maxiter = Ok r /\
      medoids n (length med) (r_med r) /\ length (r_assi r) = n /\
      (forall o, o < n -> nearest v o (r_med r) (nth o (r_assi r) 0)) /\ r_iter r <= maxiter /\
      (symmetric n v -> (tdev v n (r_med r) <=
         tdev v n med + inject_Z (Z.of_nat (r_iter r) * Z.of_nat (length med)) * e)%Q) /\
      (r_iter r < maxiter -> forall c j, c < length med -> j < n -> nth j (r_assi r) 0 = c ->
         (cluster_cost v n (r_assi r) c (nth c (r_med r) 0%nat) <= cluster_cost v n (r_assi r) c j + e)%Q).
  Proof.
    intros hs hm.
    pose proof (alternating_near HD HE Hmx Hbig Hn Hn32 maxiter hs hm) as h.
    apply oks_inv in h as (r & eq & h1 & h2 & h3 & h4 & h5 & h6). exists r.
    pose proof err_e as er. pose proof (err_pos (Lt := Lt) HD Hmx Hn) as ep.
    split; [exact eq|]. split; [exact h1|]. split; [exact h2|]. split; [exact h3|]. split; [exact h4|]. split.
    - intros hsym. specialize (h5 hsym). eapply Qle_trans; [exact h5|]. rewrite inject_Z_mult.
      change (inject_Z (Z.of_nat (r_iter r))) with (FloatSil.cnt (r_iter r)).
      change (inject_Z (Z.of_nat (length med))) with (FloatSil.cnt (length med)).
      assert (g : (FloatSil.cnt (r_iter r) * FloatSil.cnt (length med) * (2 * err (Lt := Lt) n mx) <=
                   FloatSil.cnt (r_iter r) * FloatSil.cnt (length med) * e)%Q).
      { rewrite (Qmult_comm _ (2 * err (Lt := Lt) n mx)%Q), (Qmult_comm _ e). apply Qmult_le_compat_r; [lra|]. apply Qmult_le_0_compat; apply FloatSil.cnt_pos. }
      unfold v. lra.
    - intros hlt c j hc hj hcj. specialize (h6 hlt c hc j hj hcj). unfold v. lra.
  Qed.
End Quality.
