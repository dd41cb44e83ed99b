(** P_FloatBuildMsc.v -- property C65: pammedsil with its own initial medoids, and dynmsc, in binary64.
    Every theorem is followed by a concrete input which meets its hypotheses. *)
From Coq Require Import ZArith QArith Qabs Lqa Lia Permutation.
From Coq.Floats Require Import SpecFloat.
From Verif Require Import Base Num M_Mat M_Util M_Fasterpam M_Silhouette M_Msc M_Pammedsil M_Dynmsc Inst Hoare
  Spec SpecFacts Laws FloatFacts FloatRound PamShape PamExact PamFacts PamMain MscShape MscExact MscFacts MscK2 MscMain
  FloatMain MscAny FloatSil FloatLoss FloatFmt FloatSwap FloatQuality FloatMsc FloatMsc2 DynShape DynFacts DynExact BuildMsc TermFloat FloatBuild FloatBuildMsc FloatDyn
  Ex P_Fasterpam P_Pam P_Float P_Bounded P_Rounding P_Term P_FloatOpt P_FloatMsc P_FloatBuild.
Open Scope nat_scope.

(** the first medoid is, up to [e], the best single one; each further one is, up to [e], the one which
    lowers the total deviation most among the objects other than 0 *)
Definition nearly_greedy_but_0 (v : diss) (n : nat) (meds : list nat) (e : Q) : Prop :=
  forall i y, i < length meds -> y < n -> i = 0 \/ y <> 0 ->
    (tdev v n (firstn (S i) meds) <= tdev v n (firstn i meds ++ [y]) + e)%Q.

(** C65.  pammedsil: its initial medoids, and what it returns. *)
Theorem C65_pammedsil {Nt : Type} `{HO : OrdLaws Nt} `{HF : FromN Nt f64} (M : Mat Nt) n D k maxiter mx :
  diss_matrix M n D -> exact_from n D -> at_most n D mx -> sizes n k ->
  exists meds (r : pam_result f64), pammedsil M k maxiter = Ok r /\
    1 <= length meds <= k /\ medoids n (length meds) meds /\ nearly_greedy_but_0 (vals D) n meds (rounding n mx) /\
    (length meds = k \/ forall y, 1 <= y < n -> (mindist (vals D) y meds == 0)%Q) /\
    (2 <= length meds ->
      well_assigned n (length meds) (vals D) r /\
      (maxiter = 0 -> r_med r = meds) /\
      (med_sil (vals D) n meds <= med_sil (vals D) n (r_med r) + 2 * sil_error n)%Q /\
      off_by (2 * sil_error n) (med_sil (vals D) n (r_med r)) (r_loss r) /\
      (r_iter r < maxiter -> stops_sil (vals D) n (length meds) (sil_error n) r)) /\
    (length meds = 1 -> pammedsil_swap M meds maxiter = Ok r).
Proof.
  intros HD he [hb hmx] hs. assert (hn : 1 <= n) by (destruct hs; lia). assert (hk : 1 <= k) by (destruct hs; lia).
  assert (hn32 : (N.of_nat n <= 4294967295)%N) by apply hs. pose proof (proj1 HD) as HM.
  pose proof (build3_all_near HD he hmx hb hn hn32 hk) as h. apply oks_inv in h as (st & e & l & hl & hg & hz').
  assert (hz : l = k \/ forall y, 1 <= y < n -> (mindist (vals D) y (b3_meds st) == 0)%Q) by (destruct hz' as [?|[? _]]; auto).
  pose proof (err_rounding n mx) as er. pose proof (err_pos (Lt := f64) HD hmx hn) as ep.
  assert (ep' : pammedsil M k maxiter = pammedsil_optimize M (b3_meds st) (b3_data st) maxiter (b3_loss st)).
  { unfold pammedsil. rewrite (check_input_ok HM hs). cbn [bind]. rewrite e. reflexivity. }
  pose proof hg as [h1 h2 h3 h4 h5 h6 h7 h8]. rewrite ep'. clear ep'.
  assert (hgr : nearly_greedy_but_0 (vals D) n (b3_meds st) (rounding n mx)).
  { intros i y hi hy h0. specialize (h7 i y hi hy h0). lra. }
  destruct (Nat.eq_dec l 1) as [->|hl2].
  - unfold pammedsil_optimize. rewrite h1. cbn [Nat.eqb].
    pose proof (single_medoid_near HD (exact_in_f64 he) hmx (f64_room n hn32 hb) hn (f64_few n hn32) (med := b3_meds st) h1 h2) as hsm.
    apply oks_inv in hsm as (r & er' & _). exists (b3_meds st), r. rewrite h1.
    split; [exact er'|]. split; [auto|]. split; [split; auto|]. split; [auto|]. split; [exact hz|]. split; [lia|].
    intros _. unfold pammedsil_swap.
    assert (hs1 : sizes n (length (b3_meds st))) by (rewrite h1; unfold sizes in hs |- *; lia).
    assert (hi : exists p, initial_assignment3 (Lt := f64) M (b3_meds st) = Ok p).
    { destruct (b3_meds st) as [|x [|y ms]]; try discriminate h1.
      apply (initial3_single (Lt := f64) HM); auto. apply h2. left. auto. }
    destruct hi as ([loss data] & ->). cbn [bind]. unfold pammedsil_optimize. rewrite h1. exact er'.
  - assert (hl' : 2 <= l) by lia.
    pose proof (pms_near (U := err64) HD he hn hn32 maxiter (k := l) (st := mkM (b3_meds st) (b3_data st) [] (b3_loss st) 0 0 0) hl'
      (build3_q HD hn hn32 hl' hg) eq_refl) as h.
    apply oks_inv in h as (s & es & hend). unfold pammedsil_optimize. rewrite h1.
    replace (l =? 1) with false by (symmetry; apply Nat.eqb_neq; lia).
    eexists (b3_meds st), _. rewrite h1, es. cbn [bind].
    split; [reflexivity|]. split; [auto|]. split; [split; auto|]. split; [auto|]. split; [exact hz|]. split; [|lia].
    intros _. split.
    { assert (hw : oks (whileM maxiter (pms_iteration M) (mkM (b3_meds st) (b3_data st) [] (b3_loss st) 0 0 0)) (MscAny.own_inv n D l)).
      { apply whileM_oks with (I := fun i st => MscAny.own_inv n D l st); auto.
        - pose proof (build3_q HD hn hn32 hl' hg) as hq. destruct hq. constructor; auto.
        - intros i s' hlt g. eapply oks_mono; [apply (fun hz => MscAny.pms_iteration_own HD hz hn hl' g); reflexivity|].
          intros [s''|s''] g'; exact g'. }
      apply oks_elim with (2 := es) in hw. exact (MscAny.own_fits HD hw). }
    split. { intros ->. cbn in es. injection es as <-. reflexivity. }
    eapply ended3_result64 with (L0 := b3_loss st); [exact HM|auto|auto|apply h6; auto|exact hend].
Qed.
Print Assumptions C65_pammedsil.
Definition C65_case_pammedsil := C65_pammedsil _ 5 _ 3 10 1 f1_diss (f64_exact_from _ _ _ (diss_nonneg _ _ _ f1_diss)) f1_at_most s53.
Definition C65_case_pammedsil_integers := C65_pammedsil _ 6 _ 3 10 20 m6_diss d6_exact d6_at_most s63.

(** dynmsc: what it returns, for every number of medoids.  The returned loss is positive, it is the one
    listed for the number of returned medoids, and no listed loss is greater (in the machine's
    comparison); the returned loss and assignment are right if no medoid was dropped, if two are left, or
    if at most four were given (see C31 for the other cases). *)
Theorem C65_dynmsc {Nt : Type} `{HO : OrdLaws Nt} `{HF : FromN Nt f64} (M : Mat Nt) n D med mink maxiter :
  diss_matrix M n D -> exact_from n D -> sizes n (length med) -> medoids n (length med) med -> 2 <= length med ->
  let k := length med in let mk := Nat.min (Nat.max mink 1) k in
  exists r : dyn_result f64, dynmsc M med mink maxiter = Ok r /\
    let p := d_res r in let c := length (r_med p) in
    length (d_losses r) = k - mk + 1 /\ mk <= c /\ 2 <= c <= k /\ medoids n c (r_med p) /\
    nth (c - mk) (d_losses r) S754_nan = r_loss p /\
    length (r_assi p) = n /\ (forall o, o < n -> nth o (r_assi p) 0 < c) /\ (3 <= c -> own_clusters p) /\
    r_loss p <> S754_nan /\ SFltb (S754_zero false) (r_loss p) = true /\
    (forall x, In x (d_losses r) -> x <> S754_nan /\ SFltb (r_loss p) x = false) /\
    (k <= 4 \/ c = k \/ c = 2 ->
      off_by (sil_error n) (med_sil (vals D) n (r_med p)) (r_loss p) /\
      (forall o, o < n -> nearest (vals D) o (r_med p) (nth o (r_assi p) 0))) /\
    (forall c', k <= 4 \/ c' = k \/ c' = 2 -> mk <= c' -> 2 <= c' <= k ->
      exists meds, medoids n c' meds /\ off_by (sil_error n) (med_sil (vals D) n meds) (nth (c' - mk) (d_losses r) S754_nan) /\
        (k <= 4 \/ c = k \/ c = 2 -> (med_sil (vals D) n meds <= med_sil (vals D) n (r_med p) + 2 * sil_error n)%Q)).
Proof.
  intros HD he hs hm hk k mk. assert (hn2 : 2 <= n) by (destruct hs; lia). assert (hn : 1 <= n) by lia.
  assert (hn32 : (N.of_nat n <= 4294967295)%N) by apply hs. pose proof (proj1 HD) as HM.
  destruct (dynmsc_near (U := err64) HD he hn2 hn32 maxiter hs hm mink hk) as (r & e & hf & h). fold k mk in hf, h.
  destruct h as [h1 h2 h3 h4 h5 h6 h7 [h8 h8'] h9 h10 h11]. fold k in h1, h3, h10, h11. exists r. split; [exact e|]. cbv zeta.
  assert (hmk : 1 <= mk) by (unfold mk, k; lia).
  assert (hnth : forall c, mk <= c -> c <= k -> nth (c - mk) (d_losses r) S754_nan = nth (c - mk) (d_losses r) (lzero : f64)).
  { intros c hc hc'. apply nth_indep. lia. }
  assert (LS : forall meds x, listed M n D meds x -> off_by (sil_error n) (med_sil (vals D) n meds) x /\ f64_finite x).
  { intros meds x (s & -> & hl & hb). split; [apply (silhouette_near n D hn M HM hn32 _ _ hl)|].
    apply (silhouette_pos HD hn2 hn32 (proj1 hl) hb). }
  split; [exact h1|]. split; [apply h3|]. split; [apply h3|]. split; [exact h4|].
  split; [rewrite hnth; [exact h5|apply h3|apply h3]|]. split; [exact h6|]. split; [exact h7|]. split; [exact h9|].
  split; [exact h8|]. split; [exact h8'|]. split; [exact h2|]. split.
  - intros hc. destruct (h10 ltac:(tauto)) as [q1 q2]. split; [apply LS; exact q1|exact q2].
  - intros c' hc' c1 c2. destruct (h11 c' ltac:(tauto) c1 c2) as (meds & m1 & m2). exists meds. rewrite hnth by lia.
    destruct (LS _ _ m2) as [l1 l2]. split; [exact m1|]. split; [exact l1|].
    intros hc. destruct (h10 ltac:(tauto)) as [q1 q2]. destruct (LS _ _ q1) as [l3 l4].
    assert (hx : In (nth (c' - mk) (d_losses r) (lzero : f64)) (d_losses r)) by (apply nth_In; lia).
    destruct (h2 _ hx) as [_ h12].
    assert (h13 : (f64_val (nth (c' - mk) (d_losses r) (lzero : f64)) <= f64_val (r_loss (d_res r)))%Q).
    { apply Qnot_lt_le. intros hlt. apply SFltb_val in hlt; auto. change (lltb (r_loss (d_res r)) (nth (c' - mk) (d_losses r) (lzero : f64)) = true) in hlt. congruence. }
    unfold off_by in l1, l3. apply Qabs_Qle_condition in l1, l3. lra.
Qed.
Print Assumptions C65_dynmsc.
Definition C65_case_dynmsc := C65_dynmsc _ 5 _ [0; 1; 2] 2 10 f1_diss (f64_exact_from _ _ _ (diss_nonneg _ _ _ f1_diss)) s53 k53 le23.
Definition C65_case_dynmsc_integers := C65_dynmsc _ 6 _ [0; 1; 3] 1 10 m6_diss d6_exact s63 k63 le23.

Lemma dynmsc_drops_errors {U : SumErr} {Nt : Type} `{HO : OrdLaws Nt} `{HF : FromN Nt f64} (M : Mat Nt) n D med mink :
  diss_matrix M n D -> exact_from n D -> adds_within serr n D -> sizes n (length med) -> medoids n (length med) med ->
  3 <= length med -> Nat.max mink 1 < length med ->
  exists (r : dyn_result f64) med', dynmsc M med mink 0 = Ok r /\ drop_one med med' /\
    off_by (sil_errors n) (med_sil (vals D) n med') (nth (length med - 1 - Nat.max mink 1) (d_losses r) S754_nan) /\
    forall med'', drop_one med med'' -> (med_sil (vals D) n med' <= med_sil (vals D) n med'' + sil_errors n)%Q.
Proof.
  intros HD he ha hs hm hk hlt. assert (hn2 : 2 <= n) by (destruct hs; lia). assert (hn : 1 <= n) by lia.
  assert (hn32 : (N.of_nat n <= 4294967295)%N) by apply hs. pose proof (proj1 HD) as HM.
  destruct (first_removal_near HD he hn2 hn32 hs hm ha mink hk eq_refl hlt) as (r & med' & e & hd & hl & hw).
  exists r, med'. split; [exact e|]. split; [exact hd|]. split.
  - destruct hl as (s & hx & hl & _).
    assert (hlen : length (d_losses r) = length med - Nat.min (Nat.max mink 1) (length med) + 1).
    { destruct (dynmsc_near HD he hn2 hn32 0 hs hm mink ltac:(lia)) as (r' & e' & _ & h).
      rewrite e in e'. injection e' as <-. apply (dn_len h). }
    rewrite nth_indep with (d' := (lzero : f64)) by lia. rewrite hx. 
    apply off_by_mono with (1 := sil_errors_ge n). apply (silhouette_near n D hn M HM hn32 _ _ hl).
  - intros med'' hd'. specialize (hw _ hd'). apply (units_le n D hn).
    assert (h8 : (2 * (FloatSil.cnt (4 * n) * dl n) <= FloatSil.cnt n * sil_errors n)%Q); [|lra].
    rewrite <- eps3_units. unfold eps3, dl.
    assert (e4 : (FloatSil.cnt (4 * n) == 4 * FloatSil.cnt n)%Q).
    { unfold FloatSil.cnt. rewrite Nat2Z.inj_mul, inject_Z_mult. reflexivity. }
    rewrite e4. assert (e8 : (2 ^ (-44) == 8 * (64 * 2 ^ (-53)))%Q) by reflexivity. rewrite e8.
    pose proof (cnt_pos n) as hc. assert (hc2 : (0 <= FloatSil.cnt n * FloatSil.cnt n * (64 * 2 ^ (-53)))%Q).
    { apply Qmult_le_0_compat; [apply Qmult_le_0_compat; exact hc|discriminate]. }
    assert (hs4 : (0 <= FloatSil.cnt n * (serr - 2 ^ (-53)))%Q) by (pose proof serr_lo; apply Qmult_le_0_compat; lra). lra.
Qed.

(** ... and the medoid dropped first is, up to the rounding error, the one whose removal leaves the least
    medoid silhouette (as in C41). *)
Theorem C65_dynmsc_drops {Nt : Type} `{HO : OrdLaws Nt} `{HF : FromN Nt f64} (M : Mat Nt) n D med mink :
  diss_matrix M n D -> exact_from n D -> adds_near n D -> sizes n (length med) -> medoids n (length med) med ->
  3 <= length med -> Nat.max mink 1 < length med ->
  exists (r : dyn_result f64) med', dynmsc M med mink 0 = Ok r /\ drop_one med med' /\
    off_by (sil_error n) (med_sil (vals D) n med') (nth (length med - 1 - Nat.max mink 1) (d_losses r) S754_nan) /\
    forall med'', drop_one med med'' -> (med_sil (vals D) n med' <= med_sil (vals D) n med'' + sil_error n)%Q.
Proof.
  intros HD he ha hs hm hk hlt. pose proof (errors64 n) as e64.
  destruct (dynmsc_drops_errors (U := err64) M n D med mink HD he ha hs hm hk hlt) as (r & med' & e & hd & h1 & h2).
  exists r, med'. split; [exact e|]. split; [exact hd|]. split; [apply off_by_mono with (2 := h1); lra|].
  intros med'' hm''. specialize (h2 _ hm''). lra.
Qed.
Print Assumptions C65_dynmsc_drops.
Definition C65_case_drops := C65_dynmsc_drops _ 5 _ [0; 1; 2] 1 f1_diss (f64_exact_from _ _ _ (diss_nonneg _ _ _ f1_diss)) f1_adds s53 k53 (le_n 3) le23.
Definition C65_case_drops_integers := C65_dynmsc_drops _ 6 _ [0; 1; 3] 2 m6_diss d6_exact d6_adds s63 k63 (le_n 3) (le_n 3).
