(** P_FloatSepMsc.v -- property C72: when no two sets of medoids have nearly the same medoid silhouette,
    rounding does not change what fastermsc, fastmsc and the swap phase of PAMMEDSIL do.  Concrete inputs which
    meet the hypotheses stand below the theorems. *)
From Coq Require Import ZArith QArith Qabs Lqa Lia Permutation.
From Coq.Floats Require Import SpecFloat.
From Verif Require Import Base Num M_Mat M_Util M_Fasterpam M_Msc M_Pammedsil Inst Hoare Spec SpecFacts Laws
  FloatFacts FloatRound PamShape PamExact PamFacts MscShape MscExact MscFacts MscK2 Reference LocalSearch RefFacts FloatMain FloatSil
  FloatMsc FloatMsc2 FloatMono FloatSwap FloatBuild FloatBuildMsc FloatSep FloatSepMsc TermFloat Float32 Ex P_Fasterpam P_Pam P_Float P_Bounded P_Rounding P_Term P_FloatOpt
  P_FloatMsc P_Reference P_Float32 P_FloatSep P_FloatBuild P_FloatBuildMsc.
Open Scope nat_scope.

(** The run makes the choices of the search [x], which is carried out in exact arithmetic; the silhouette it
    returns is off by at most [e], and if it ends before the limit then no swap raises the silhouette. *)
Definition follows_sil (v : diss) (n k maxiter : nat) (e : Q) (x : list nat * nat * nat) (m : res (pam_result f64)) : Prop :=
  exists r, m = Ok r /\ (r_med r, r_swaps r, r_iter r) = x /\ off_by e (med_sil v n (r_med r)) (r_loss r) /\
    medoids n k (r_med r) /\ (r_iter r < maxiter -> sil_optimal v n (r_med r)).

Section Runs.
  Context {U : SumErr} {Nt : Type} `{HO : OrdLaws Nt} `{HF : FromN Nt f64}.
  Variables (M : Mat Nt) (n : nat) (D : nat -> nat -> Nt) (med : list nat) (maxiter : nat).
  Hypothesis HD : diss_matrix M n D.
  Hypothesis he : exact_from n D.
  Hypothesis ha : adds_within serr n D.
  Hypothesis hs : sizes n (length med).
  Hypothesis hm : medoids n (length med) med.
  Hypothesis hk : 2 <= length med.
  Local Notation v := (vals D).
  Let HM : is_matrix M n D := proj1 HD.
  Lemma runs_n : 1 <= n.
  Proof. destruct hs; lia. Qed.
  Lemma runs_n32 : (N.of_nat n <= 4294967295)%N.
  Proof. apply hs. Qed.
  Let hn := runs_n.
  Let hn32 := runs_n32.
  Lemma runs_in : inr n med.
  Proof. exact (proj2 (proj2 hm)). Qed.
  Let hin := runs_in.

  (** the sum of the ratios against the average silhouette *)
  Lemma apart_units a b : (sil_errors n < Qabs (med_sil v n a - med_sil v n b))%Q -> (eps3 n < Qabs (rtot v n a - rtot v n b))%Q.
  Proof.
    intros h. destruct (Qlt_le_dec (eps3 n) (Qabs (rtot v n a - rtot v n b))) as [|h']; [auto|]. exfalso.
    apply Qabs_Qle_condition in h' as [h1 h2]. pose proof (eps3_units n) as hu.
    assert (g1 : (rtot v n a <= rtot v n b + FloatSil.cnt n * sil_errors n)%Q) by lra.
    assert (g2 : (rtot v n b <= rtot v n a + FloatSil.cnt n * sil_errors n)%Q) by lra.
    apply (units_le n D hn) in g1. apply (units_le n D hn) in g2.
    assert (Qabs (med_sil v n a - med_sil v n b) <= sil_errors n)%Q by (apply Qabs_Qle_condition; lra). lra.
  Qed.
  Lemma swaps_units : swaps_apart (med_sil v n) n (length med) (sil_errors n) -> swaps_apart (rtot v n) n (length med) (eps3 n).
  Proof. intros h m b j h1 h2 h3 h4. apply apart_units. auto. Qed.
  Lemma sets_units : sets_apart (med_sil v n) n (length med) (sil_errors n) -> sets_apart (rtot v n) n (length med) (eps3 n).
  Proof. intros h a b h1 h2 h3. apply apart_units. auto. Qed.

  Lemma run_follows ref rmed (s : f64) swaps iter assi : sil_run n D ref (length med) maxiter rmed s swaps iter ->
    follows_sil v n (length med) maxiter (sil_error n) ref (Ok (mkPR (to_silhouette M s) assi iter swaps rmed)).
  Proof.
    intros (h1 & h2 & h3 & h4). eexists. split; [reflexivity|]. cbn [r_med r_swaps r_iter r_loss].
    split; [exact h1|]. split; [apply (silhouette_near n D hn M HM hn32); exact h3|]. split; [exact h2|].
    intros hlt b j hb hj hni. rewrite (proj1 h2) in hb. specialize (h4 hlt b j hb hj hni).
    pose proof (units_le n D hn 0%Q rmed (swap rmed b j)) as hu. lra.
  Qed.

  Lemma fastermsc_follows : swaps_apart (med_sil v n) n (length med) (sil_errors n) ->
    follows_sil v n (length med) maxiter (sil_error n) (eager_swaps (sil_better v n) (seq 0 n) med maxiter) (fastermsc M med maxiter).
  Proof.
    intros hsep. apply swaps_units in hsep.
    assert (hk1 : (length med =? 1) = false) by (apply Nat.eqb_neq; lia).
    destruct (emb_vals HD) as [hemb hg]. pose proof hm as (_ & hnd & hin2). unfold fastermsc. rewrite hk1. destruct (length med =? 2) eqn:hk2.
    - apply Nat.eqb_eq in hk2. pose proof run_follows as hf. pose proof hs as hs2. pose proof hm as hm2.
      rewrite hk2 in hf, hs2, hm2, hsep |- *. unfold fastermsc_k2. rewrite hk2. cbn [Nat.eqb assertb bind].
      destruct (k2_initial (Lt := f64) HD hs2 hm2) as (loss2 & assi2 & data2 & e2 & h2). rewrite e2, (len_n HM). cbn [bind].
      pose proof (fastermsc_k2_sep HD he hn hn32 maxiter hsep (h2 n) eq_refl eq_refl eq_refl) as h.
      apply oks_inv in h as (s & -> & h). cbn [bind]. apply hf. exact h.
    - apply Nat.eqb_neq in hk2. assert (hk3 : 3 <= length med) by lia.
      pose proof (initial_assignment3_ok (Lt := f64) HM True hs hin hk) as h.
      apply oks_inv in h as ([loss data] & e & hd & hsum & hown). cbn [fst snd] in *.
      pose proof (update_removal_loss3_near HD he hn hn32 _ hin hk3 hd (repeat_length (lzero : f64) (length med))) as h.
      apply oks_inv in h as (rl & er & hrl & hrn).
      rewrite e. cbn [bind]. rewrite er, (len_n HM). cbn [bind].
      assert (hc0 : m_core n D (length med) (mkM med data rl loss n 0 0)).
      { constructor; cbn [m_med m_data m_rl m_loss]; eauto. constructor; auto. }
      pose proof (fastermsc_sep HD he hn hn32 ha maxiter hk3 hsep hc0 eq_refl eq_refl eq_refl) as h.
      apply oks_inv in h as (s & -> & h). cbn [bind]. apply run_follows. exact h.
  Qed.

  Lemma fastmsc_pammedsil_follow : sets_apart (med_sil v n) n (length med) (sil_errors n) ->
    let ok := follows_sil v n (length med) maxiter (sil_error n) (best_swaps (sil_better v n) n med maxiter) in
    ok (fastmsc M med maxiter) /\ ok (pammedsil_swap M med maxiter).
  Proof.
    intros hsep. apply sets_units in hsep. cbv zeta.
    assert (hk1 : (length med =? 1) = false) by (apply Nat.eqb_neq; lia).
    destruct (emb_vals HD) as [hemb hg]. pose proof hm as (_ & hnd & hin2).
    pose proof (initial_assignment3_ok (Lt := f64) HM True hs hin hk) as h.
    apply oks_inv in h as ([loss data] & e & hd & hsum & hown). cbn [fst snd] in *.
    pose proof (loss3_near HD he hn hn32 hin hd hsum) as hL.
    assert (hi : forall rl, q_all n D (length med) (mkM med data rl loss 0 0 0)).
    { intros rl. constructor; cbn [m_med m_data m_loss]; eauto. constructor; auto. }
    split.
    - unfold fastmsc. rewrite hk1. destruct (length med =? 2) eqn:hk2.
      + apply Nat.eqb_eq in hk2. pose proof run_follows as hf. pose proof hs as hs2. pose proof hm as hm2.
        rewrite hk2 in hf, hs2, hm2, hsep |- *. unfold fastmsc_k2. rewrite hk2. cbn [Nat.eqb assertb bind].
        destruct (k2_initial (Lt := f64) HD hs2 hm2) as (loss2 & assi2 & data2 & e2 & h2). rewrite e2. cbn [bind].
        assert (hn2 : 2 <= n) by (destruct hs2; lia).
        pose proof (fastmsc_k2_sep HD he hn hn32 maxiter hn2 hsep (h2 0) eq_refl eq_refl) as h.
        apply oks_inv in h as (s & -> & h). cbn [bind]. apply hf. exact h.
      + apply Nat.eqb_neq in hk2. assert (hk3 : 3 <= length med) by lia. rewrite e. cbn [bind].
        pose proof (fastmsc_sep HD he hn hn32 maxiter ha hk3 hsep (hi (repeat lzero (length med))) (repeat_length _ _) eq_refl eq_refl) as h.
        apply oks_inv in h as (s & -> & h). cbn [bind]. apply run_follows. exact h.
    - pose proof (pms_sep HD he hn hn32 maxiter hk hsep (hi []) eq_refl eq_refl) as h.
      apply oks_inv in h as (s & es & h). unfold pammedsil_swap. rewrite e. cbn [bind]. unfold pammedsil_optimize. rewrite hk1, es.
      apply run_follows. exact h.
  Qed.
End Runs.

Lemma swaps_apart_mono f n k e e' : (e' <= e)%Q -> swaps_apart f n k e -> swaps_apart f n k e'.
Proof. intros he h med b j h1 h2 h3 h4. specialize (h med b j h1 h2 h3 h4). lra. Qed.
Lemma sets_apart_mono f n k e e' : (e' <= e)%Q -> sets_apart f n k e -> sets_apart f n k e'.
Proof. intros he h a b h1 h2 h3. specialize (h a b h1 h2 h3). lra. Qed.

(** C72.  fastermsc performs the swaps of first-improvement search if no swap changes the average medoid
    silhouette by [sil_error n] or less. *)
Theorem C72_fastermsc {Nt : Type} `{HO : OrdLaws Nt} `{HF : FromN Nt f64} (M : Mat Nt) n D med maxiter :
  diss_matrix M n D -> exact_from n D -> adds_near n D -> sizes n (length med) -> medoids n (length med) med -> 2 <= length med ->
  swaps_apart (med_sil (vals D) n) n (length med) (sil_error n) ->
  follows_sil (vals D) n (length med) maxiter (sil_error n)
    (eager_swaps (sil_better (vals D) n) (seq 0 n) med maxiter) (fastermsc M med maxiter).
Proof.
  intros HD he ha hs hm hk hsep. pose proof (errors64 n) as e64.
  apply (fastermsc_follows (U := err64) M n D med maxiter HD he ha hs hm hk).
  apply swaps_apart_mono with (2 := hsep). lra.
Qed.
Print Assumptions C72_fastermsc.

(** fastmsc and the swap phase of PAMMEDSIL perform those of best-improvement search if no two different sets
    of medoids nearly tie. *)
Theorem C72_fastmsc_pammedsil {Nt : Type} `{HO : OrdLaws Nt} `{HF : FromN Nt f64} (M : Mat Nt) n D med maxiter :
  diss_matrix M n D -> exact_from n D -> adds_near n D -> sizes n (length med) -> medoids n (length med) med -> 2 <= length med ->
  sets_apart (med_sil (vals D) n) n (length med) (sil_error n) ->
  let ok := follows_sil (vals D) n (length med) maxiter (sil_error n) (best_swaps (sil_better (vals D) n) n med maxiter) in
  ok (fastmsc M med maxiter) /\ ok (pammedsil_swap M med maxiter).
Proof.
  intros HD he ha hs hm hk hsep. pose proof (errors64 n) as e64.
  apply (fastmsc_pammedsil_follow (U := err64) M n D med maxiter HD he ha hs hm hk).
  apply sets_apart_mono with (2 := hsep). lra.
Qed.
Print Assumptions C72_fastmsc_pammedsil.

(** dissimilarities of type [f32] *)
Theorem C72_f32 (M : Mat f32) n D med maxiter :
  diss_matrix M n D -> (forall x y, x < n -> y < n -> (vals D x y <= 2 ^ 126)%Q) -> sizes n (length med) ->
  medoids n (length med) med -> 2 <= length med ->
  let ok := follows_sil (vals D) n (length med) maxiter (sil_error n) in
  (swaps_apart (med_sil (vals D) n) n (length med) (sil_error32 n) ->
     ok (eager_swaps (sil_better (vals D) n) (seq 0 n) med maxiter) (fastermsc M med maxiter)) /\
  (sets_apart (med_sil (vals D) n) n (length med) (sil_error32 n) ->
     ok (best_swaps (sil_better (vals D) n) n med maxiter) (fastmsc M med maxiter) /\
     ok (best_swaps (sil_better (vals D) n) n med maxiter) (pammedsil_swap M med maxiter)).
Proof.
  intros hd hb hs hm hk. pose proof (exact32 M n D hd) as he. pose proof (errors32 n) as h32.
  pose proof (f32_adds_within (diss_nonneg _ _ _ hd) hb) as ha. cbv zeta. split; intros hsep.
  - apply (fastermsc_follows (U := err32) M n D med maxiter hd he ha hs hm hk). apply swaps_apart_mono with (2 := hsep). exact h32.
  - apply (fastmsc_pammedsil_follow (U := err32) M n D med maxiter hd he ha hs hm hk). apply sets_apart_mono with (2 := hsep). exact h32.
Qed.
Print Assumptions C72_f32.

(** pammedsil: if moreover no two sets of at most [k] medoids nearly tie in the total deviation, its initial
    medoids are those of the greedy initialization which leaves out object 0 after the first medoid. *)
Theorem C72_pammedsil {Nt : Type} `{HO : OrdLaws Nt} `{HF : FromN Nt f64} (M : Mat Nt) n D k maxiter mx :
  diss_matrix M n D -> exact_from n D -> at_most n D mx -> sizes n k -> 2 <= k -> k + 1 < n ->
  (forall i, 1 <= i <= k -> sets_apart (tdev (vals D) n) n i (rounding n mx)) ->
  sets_apart (med_sil (vals D) n) n k (sil_error n) ->
  let start := greedy_start (vals D) n (seq 1 (n - 1)) k in
  length start = k /\
  follows_sil (vals D) n k maxiter (sil_error n) (best_swaps (sil_better (vals D) n) n start maxiter) (pammedsil M k maxiter).
Proof.
  intros HD he [hb hmx] hs hk hkn hdev hsil. cbv zeta. pose proof (proj1 HD) as HM.
  assert (hn : 1 <= n) by lia. assert (hn32 : (N.of_nat n <= 4294967295)%N) by apply hs.
  assert (her : (2 * FloatSwap.err (Lt := f64) n mx <= rounding n mx)%Q).
  { pose proof (err_rounding n mx) as er. pose proof (err_pos (Lt := f64) HD hmx hn). lra. }
  assert (hk1 : 1 <= k) by lia.
  pose proof (build3_sep HD he hn hn32 hmx hb her hk1 hkn hdev) as h. apply oks_inv in h as (st & e & hg & em).
  pose proof (b3n_len hg) as hlen.
  unfold greedy_start. rewrite <- em. split; [exact hlen|].
  assert (hs2 : sizes n (length (b3_meds st))) by (rewrite hlen; exact hs).
  assert (hl2 : 2 <= length (b3_meds st)) by (rewrite hlen; exact hk).
  pose proof (errors64 n) as e64.
  assert (hsep : sets_apart (rtot (vals D) n) n k (eps3 (U := err64) n)).
  { assert (hq : sets_apart (med_sil (vals D) n) n (length (b3_meds st)) (sil_errors (U := err64) n)).
    { rewrite hlen. apply sets_apart_mono with (2 := hsil). lra. }
    apply (sets_units (U := err64) n D (b3_meds st) hs2 hl2) in hq. rewrite hlen in hq. exact hq. }
  pose proof (pms_sep (U := err64) HD he hn hn32 maxiter hk hsep (build3_q HD hn hn32 hk hg) eq_refl eq_refl) as h.
  apply oks_inv in h as (s & es & h). cbn [m_med] in h.
  unfold pammedsil. rewrite (check_input_ok HM hs). cbn [bind]. rewrite e. cbn [bind]. unfold pammedsil_optimize.
  replace (length (b3_meds st) =? 1) with false by (symmetry; apply Nat.eqb_neq; lia). rewrite es. cbn [bind].
  rewrite <- hlen at 1. apply (run_follows M n D (b3_meds st) maxiter HD hs2 hl2). rewrite hlen. exact h.
Qed.
Print Assumptions C72_pammedsil.

(** So the runs do what runs in exact arithmetic do on the same dissimilarities, in whatever type they are
    held there. *)
Lemma follows_sil_finds {L2 : Type} v n k maxiter e x y (m1 : res (pam_result f64)) (m2 : res (pam_result L2)) :
  follows_sil v n k maxiter e x m1 -> finds y m2 -> x = y -> same_steps m1 m2.
Proof.
  intros (r1 & e1 & h1 & _) (r2 & e2 & h2) exy. exists r1, r2. split; [exact e1|]. split; [exact e2|].
  rewrite <- exy in h2. rewrite <- h1 in h2. injection h2 as h2 h3 h4. auto.
Qed.

Theorem C72_like_exact {Nt : Type} `{HO : OrdLaws Nt} `{HF : FromN Nt f64}
    {N2 L2 : Type} `{HLL : LossLaws N2 L2} `{HAL : !AddLaws N2} `{HDL : !DivLaws N2 L2}
    (M : Mat Nt) n D (M2 : Mat N2) D2 med maxiter :
  diss_matrix M n D -> exact_from n D -> adds_near n D -> sizes n (length med) -> medoids n (length med) med -> 2 <= length med ->
  diss_matrix M2 n D2 -> (forall i j, i < n -> j < n -> (vals D2 i j == vals D i j)%Q) ->
  (swaps_apart (med_sil (vals D) n) n (length med) (sil_error n) ->
     same_steps (fastermsc (Lt := f64) M med maxiter) (fastermsc (Lt := L2) M2 med maxiter)) /\
  (sets_apart (med_sil (vals D) n) n (length med) (sil_error n) ->
     same_steps (fastmsc (Lt := f64) M med maxiter) (fastmsc (Lt := L2) M2 med maxiter) /\
     same_steps (pammedsil_swap (Lt := f64) M med maxiter) (pammedsil_swap (Lt := L2) M2 med maxiter)).
Proof.
  intros HD he ha hs hm hk HD2 hv.
  assert (h01 : (0 < 1)%Q) by lra.
  assert (hv' : forall i j, i < n -> j < n -> (vals D2 i j == 1 * vals D i j)%Q) by (intros; rewrite hv by auto; ring).
  assert (hsil : forall a b, inr n a -> inr n b -> sil_better (vals D2) n a b = sil_better (vals D) n a b).
  { intros a b h1 h2. apply sil_scale with (c := 1%Q); auto. }
  assert (hin : inr n med) by exact (proj2 (proj2 hm)).
  destruct (C54_msc_are_plain_searches (Lt := L2) M2 n D2 med maxiter HD2 hs hm hk) as (b1 & b2 & b3).
  split.
  - intros hsep. pose proof (C72_fastermsc M n D med maxiter HD he ha hs hm hk hsep) as a1.
    eapply follows_sil_finds; [exact a1|exact b1|]. symmetry. apply eager_scale with (n := n); auto.
    intros j hj. apply in_seq in hj. lia.
  - intros hsep. destruct (C72_fastmsc_pammedsil M n D med maxiter HD he ha hs hm hk hsep) as [a2 a3].
    split; (eapply follows_sil_finds; [eassumption|eassumption|]; symmetry; apply best_scale; auto).
Qed.
Print Assumptions C72_like_exact.

Theorem C72_pammedsil_like_exact {Nt : Type} `{HO : OrdLaws Nt} `{HF : FromN Nt f64}
    {N2 L2 : Type} `{HLL : LossLaws N2 L2} `{HAL : !AddLaws N2} `{HDL : !DivLaws N2 L2}
    (M : Mat Nt) n D (M2 : Mat N2) D2 k maxiter mx :
  diss_matrix M n D -> exact_from n D -> at_most n D mx -> sizes n k -> 2 <= k -> k + 1 < n ->
  diss_matrix M2 n D2 -> (forall i j, i < n -> j < n -> (vals D2 i j == vals D i j)%Q) ->
  (forall i, 1 <= i <= k -> sets_apart (tdev (vals D) n) n i (rounding n mx)) ->
  sets_apart (med_sil (vals D) n) n k (sil_error n) ->
  same_steps (pammedsil (Lt := f64) M k maxiter) (pammedsil (Lt := L2) M2 k maxiter).
Proof.
  intros HD he hm hs hk hkn HD2 hv hdev hsil.
  destruct (C72_pammedsil M n D k maxiter mx HD he hm hs hk hkn hdev hsil) as [hl a].
  assert (h01 : (0 < 1)%Q) by lra.
  assert (hv' : forall i j, i < n -> j < n -> (vals D2 i j == 1 * vals D i j)%Q) by (intros; rewrite hv by auto; ring).
  assert (hstart : greedy_start (vals D2) n (seq 1 (n - 1)) k = greedy_start (vals D) n (seq 1 (n - 1)) k /\
    inr n (greedy_start (vals D) n (seq 1 (n - 1)) k)).
  { unfold greedy_start. destruct (@next_scale (vals D) (vals D2) n 1%Q h01 hv' []) as [e1 e2]; [intros m []|lia|].
    rewrite e1. apply (@grow_scale (vals D) (vals D2) n 1%Q h01 hv').
    - intros y hy. apply in_seq in hy. lia.
    - intros m [<-|[]]. exact e2. }
  destruct hstart as [es hin].
  assert (hl2 : 2 <= length (greedy_start (vals D2) n (seq 1 (n - 1)) k)) by (rewrite es, hl; exact hk).
  pose proof (C54_pammedsil_is_greedy_descent (Lt := L2) M2 n D2 k maxiter HD2 hs hl2) as b.
  eapply follows_sil_finds; [exact a|exact b|]. rewrite es. symmetry. apply best_scale; auto.
  intros x y hx hy. apply sil_scale with (c := 1%Q); auto.
Qed.
Print Assumptions C72_pammedsil_like_exact.

(** ** Matrices without near ties *)
Lemma a_apart_sil i : 2 <= i <= 3 -> sets_apart (med_sil (vals (fentries rows_a)) 5) 5 i (sil_error 5).
Proof. intros h. apply apartb_spec. do 4 (destruct i; [try lia; vm_compute; reflexivity|]). lia. Qed.
Lemma a_adds : adds_near 5 (fentries rows_a).
Proof.
  apply (f64_adds_near (diss_nonneg _ _ _ a_diss)). intros x y hx hy.
  do 5 (destruct x; [do 5 (destruct y; [vm_compute; discriminate|]); lia|]). lia.
Qed.
Definition a_sil2 := a_apart_sil 2 ltac:(lia).
Definition a_sil3 := a_apart_sil 3 ltac:(lia).
Definition C72_case_fastermsc := C72_fastermsc _ 5 _ [0; 1; 2] 10 a_diss a_exact a_adds s53 k53 le23 (sets_swaps a_sil3).
Definition C72_case_fastermsc_two := C72_fastermsc _ 5 _ [0; 1] 10 a_diss a_exact a_adds s52 k52 le22 (sets_swaps a_sil2).
Definition C72_case_fastmsc_pammedsil := C72_fastmsc_pammedsil _ 5 _ [0; 1; 2] 10 a_diss a_exact a_adds s53 k53 le23 a_sil3.
Definition C72_case_two := C72_fastmsc_pammedsil _ 5 _ [0; 1] 10 a_diss a_exact a_adds s52 k52 le22 a_sil2.
Definition C72_case_like_exact := C72_like_exact (L2 := Q) _ 5 _ _ aq [0; 1; 2] 10 a_diss a_exact a_adds s53 k53 le23 aq_diss aq_same.
Definition C72_case_like_exact_eager := proj1 C72_case_like_exact (sets_swaps a_sil3).
Definition C72_case_like_exact_steep := proj2 C72_case_like_exact a_sil3.

Definition C72_case_pammedsil := C72_pammedsil _ 5 _ 3 10 4 a_diss a_exact a_at_most s53 le23 (le_n 5) a_apart a_sil3.
Definition C72_case_pammedsil_like_exact := C72_pammedsil_like_exact (L2 := Q) _ 5 _ _ aq 3 10 4 a_diss a_exact a_at_most s53 le23 (le_n 5)
  aq_diss aq_same a_apart a_sil3.
Example C72_value_pammedsil : greedy_start (vals (fentries rows_a)) 5 (seq 1 4) 3 = [4; 3; 1] /\
  best_swaps (sil_better (vals (fentries rows_a)) 5) 5 [4; 3; 1] 10 = ([2; 3; 0], 2, 3).
Proof. vm_compute. auto. Qed.

(** the same numbers as [f32] *)
Definition rows_a32 : list (list f32) := Eval vm_compute in map (map tenth32) rows_az.
Lemma a32_diss : diss_matrix (mat_of_rows rows_a32) 5 (entries32 rows_a32).
Proof. apply rows32_diss; [lia|reflexivity]. Qed.
Lemma a32_small x y : x < 5 -> y < 5 -> (vals (entries32 rows_a32) x y <= 2 ^ 126)%Q.
Proof. intros hx hy. do 5 (destruct x; [do 5 (destruct y; [vm_compute; discriminate|]); lia|]). lia. Qed.
Lemma a32_apart i : 2 <= i <= 3 -> sets_apart (med_sil (vals (entries32 rows_a32)) 5) 5 i (sil_error32 5).
Proof. intros h. apply apartb_spec. do 4 (destruct i; [try lia; vm_compute; reflexivity|]). lia. Qed.
Definition C72_case_f32 := C72_f32 _ 5 _ [0; 1; 2] 10 a32_diss a32_small s53 k53 le23.
Definition C72_case_f32_eager := proj1 C72_case_f32 (sets_swaps (a32_apart 3 ltac:(lia))).
Definition C72_case_f32_steep := proj2 C72_case_f32 (a32_apart 3 ltac:(lia)).
Example C72_value :
  eager_swaps (sil_better (vals (fentries rows_a)) 5) (seq 0 5) [0; 1] 10 = ([2; 3], 2, 2) /\
  best_swaps (sil_better (vals (fentries rows_a)) 5) 5 [0; 1] 10 = ([2; 3], 3, 4) /\
  eager_swaps (sil_better (vals (fentries rows_a)) 5) (seq 0 5) [0; 1; 2] 10 = ([0; 3; 2], 1, 2).
Proof. vm_compute. auto. Qed.

(** Ties are decided by the rounding errors.  On a metric with the distances 3, 4, 5 and 6 between four
    objects no swap changes the silhouette for the better, but all three algorithms perform one. *)
Definition rows_tie : list (list Z) := [[0; 4; 6; 3]; [4; 0; 5; 6]; [6; 5; 0; 4]; [3; 6; 4; 0]]%Z.
Definition rows_tie3 : list (list Z) := [[0; 6; 6; 5]; [6; 0; 5; 5]; [6; 5; 0; 4]; [5; 5; 4; 0]]%Z.
Lemma tie_diss : diss_matrix (mat_of_rows rows_tie) 4 (entries rows_tie).
Proof. apply (rows_diss (n := 4)); [lia|reflexivity]. Qed.
Lemma tie3_diss : diss_matrix (mat_of_rows rows_tie3) 4 (entries rows_tie3).
Proof. apply (rows_diss (n := 4)); [lia|reflexivity]. Qed.
Lemma metric4 rows : diss_matrix (mat_of_rows rows) 4 (entries rows) ->
  forallb (fun i => forallb (fun j => (entries rows i j =? entries rows j i)%Z &&
    forallb (fun l => (entries rows i l <=? entries rows i j + entries rows j l)%Z) (seq 0 4)) (seq 0 4)) (seq 0 4) = true ->
  metric 4 (vals (entries rows)).
Proof.
  intros hd h. pose proof hd as (_ & h3 & h4).
  assert (g : forall i j l, i < 4 -> j < 4 -> l < 4 -> entries rows i j = entries rows j i /\
    (entries rows i l <= entries rows i j + entries rows j l)%Z).
  { intros i j l hi hj hl. rewrite forallb_forall in h. specialize (h i ltac:(apply in_seq; lia)).
    rewrite forallb_forall in h. specialize (h j ltac:(apply in_seq; lia)). apply andb_true_iff in h as [h1 h2].
    rewrite forallb_forall in h2. specialize (h2 l ltac:(apply in_seq; lia)). split; [apply Z.eqb_eq; auto|apply Z.leb_le; auto]. }
  split; [split|split].
  - intros i hi. unfold vals. rewrite (h3 i hi). reflexivity.
  - intros i j hi hj. apply h4; auto.
  - intros i j hi hj. destruct (g i j 0 hi hj ltac:(lia)) as [e _]. unfold vals. rewrite e. reflexivity.
  - intros i j l hi hj hl. destruct (g i j l hi hj hl) as [_ e]. unfold vals. cbn [vN OrdLaws_Z].
    rewrite <- inject_Z_plus, <- Zle_Qle. exact e.
Qed.

Theorem C72_ties_refuted : exists (M : Mat Z) n D med,
  diss_matrix M n D /\ metric n (vals D) /\ sizes n (length med) /\ medoids n (length med) med /\
  forall maxiter, 1 <= maxiter ->
    eager_swaps (sil_better (vals D) n) (seq 0 n) med maxiter = (med, 0, 1) /\
    best_swaps (sil_better (vals D) n) n med maxiter = (med, 0, 1) /\
    exists r1 r2 r3 : pam_result f64, fastermsc M med maxiter = Ok r1 /\ fastmsc M med maxiter = Ok r2 /\
      pammedsil_swap M med maxiter = Ok r3 /\ (forall r, r = r1 \/ r = r2 \/ r = r3 -> r_swaps r = 1 /\ r_med r <> med).
Proof.
  exists (mat_of_rows rows_tie), 4, (entries rows_tie), [0; 1].
  split; [exact tie_diss|]. split; [apply metric4; [exact tie_diss|vm_compute; reflexivity]|]. split; [exact s42|]. split; [exact k42|].
  intros maxiter hm. destruct maxiter as [|f]; [lia|].
  split; [destruct f; vm_compute; reflexivity|]. split; [destruct f; vm_compute; reflexivity|].
  destruct f as [|f]; (do 3 eexists; split; [vm_compute; reflexivity|]; split; [vm_compute; reflexivity|]; split; [vm_compute; reflexivity|];
    intros r [->|[->| ->]]; (split; [reflexivity|discriminate])).
Qed.
Print Assumptions C72_ties_refuted.

(** With ties fastmsc and the swap phase of PAMMEDSIL, which do the same in exact arithmetic, can come to
    different results. *)
Lemma s43 : sizes 4 3. Proof. apply sizes_ok. reflexivity. Qed.
Lemma k43 : medoids 4 3 [0; 1; 2]. Proof. apply meds_ok. reflexivity. Qed.
Theorem C72_agree_refuted : exists (M : Mat Z) n D med,
  diss_matrix M n D /\ metric n (vals D) /\ sizes n (length med) /\ medoids n (length med) med /\
  forall maxiter, 1 <= maxiter -> exists r1 r2 : pam_result f64,
    fastmsc M med maxiter = Ok r1 /\ pammedsil_swap M med maxiter = Ok r2 /\ r_swaps r1 = 1 /\ r_swaps r2 = 0 /\ r_med r1 <> r_med r2.
Proof.
  exists (mat_of_rows rows_tie3), 4, (entries rows_tie3), [0; 1; 2].
  split; [exact tie3_diss|]. split; [apply metric4; [exact tie3_diss|vm_compute; reflexivity]|]. split; [exact s43|]. split; [exact k43|].
  intros maxiter hm. destruct maxiter as [|f]; [lia|].
  destruct f as [|f]; (do 2 eexists; split; [vm_compute; reflexivity|]; split; [vm_compute; reflexivity|]; split; [reflexivity|]; split;
    [reflexivity|discriminate]).
Qed.
Print Assumptions C72_agree_refuted.
