(** FloatPamsil.v -- binary64: the silhouette of a medoid list, and BUILD of PAMSIL (pamsil.rs) *)
From Coq Require Import ZArith QArith Qpower Lqa Lia.
From Coq.Floats Require Import SpecFloat.
From Verif Require Import Base Num M_Mat M_Util M_Fasterpam M_Pam M_Alternating M_Silhouette M_Pamsil Inst Hoare Spec SpecFacts
  Laws FloatFacts FloatExact FloatRound PamShape PamExact PamFacts FloatSil FloatLoss FloatMain FloatFmt FloatSwap BuildFacts
  ChooseFacts AltFacts SilFacts PamsilFacts FloatBuild FloatSilErr.
Set Implicit Arguments.
Open Scope Q_scope.

(** ** silhouettes of medoid lists *)
Section Value.
  Context {Nt : Type} `{HO : OrdLaws Nt} `{HFN : FromN Nt f64}.
  Variable M : Mat Nt.
  Variable n : nat.
  Variable D : nat -> nat -> Nt.
  Hypothesis HD : diss_matrix M n D.
  Hypothesis HE : exact_from n D.
  Hypothesis HB : forall x y, (x < n)%nat -> (y < n)%nat -> vals D x y <= 2 ^ big_g.
  Hypothesis HT : forall x y, (x < n)%nat -> (y < n)%nat -> not_tiny (vals D x y).
  Notation v := (vals D).

  (** with distinct medoids, the cached value is nearly the silhouette of the clustering *)
  Lemma sv_near med s assi : sizes n (length med) -> (2 <= length med)%nat -> medoids n (length med) med ->
    sv M med = Ok s -> assigned_first v n med assi -> close (avg_err n) (sil_mean v assi) s.
  Proof.
    intros hs hk hm e ha. unfold sv in e.
    pose proof (assign_first (Lt := f64) HD hs hm) as h. apply oks_inv in h as ([loss assi'] & e' & h'). cbn [snd] in h'.
    rewrite e' in e. cbn [bind] in e. rewrite (assigned_first_unique (proj1 (proj2 hm)) h' ha) in e.
    pose proof (assigned_first_dense hm ha) as hde.
    assert (hw : width assi <> 1%nat) by (rewrite (dense_width (K := length med)); auto; lia).
    assert (hl : length assi = n) by apply ha.
    assert (hs1 : (1 <= length assi <= n)%nat) by (destruct hs; lia).
    assert (hn32 : (N.of_nat n <= 4294967295)%N) by apply hs.
    pose proof (silhouette_near (diss_nonneg _ _ _ HD) HE HB HT hn32 assi false hs1 hw) as h.
    apply oks_inv in h as ([x vec] & ex & _ & hx & _). rewrite ex in e. cbn [bind] in e.
    injection e as <-. cbn [fst] in hx. eapply close_ext; [reflexivity| |exact hx].
    unfold code_mean, sil_mean. rewrite (sumQ_ext _ (sil_object v assi)); [reflexivity|].
    intros i hi. apply in_seq in hi. apply (code_sil_dense D (K := length med)); auto. apply nth_error_nth'. lia.
  Qed.

  (** all compared values are finite *)
  Lemma sv_finite k med s : sizes n k -> (2 <= k)%nat -> length med = k -> inr n med -> sv M med = Ok s -> f64_finite s.
  Proof.
    intros hs hk hl hin e. destruct (sv_ok (Lt := f64) (proj1 HD) hs hl hin) as (loss & assi & s' & e1 & e2 & e3 & e4).
    rewrite e in e3. injection e3 as <-. destruct e4 as [a1 a2].
    assert (hs1 : (1 <= length assi <= n)%nat) by (destruct hs; lia).
    assert (hn32 : (N.of_nat n <= 4294967295)%N) by apply hs.
    destruct (Nat.eq_dec (width assi) 1) as [hw|hw].
    - pose proof (proj1 HD) as hm.
      assert (ez : silhouette (Lt := f64) M assi false = Ok (lzero, [])).
      { change (@nil f64) with (repeat (lzero : f64) (if false then length assi else 0%nat)). apply silhouette_one; auto; [apply hm|].
        pose proof (sil_buf_oks (Lt := f64) hm assi (i := 0%nat) ltac:(lia) ltac:(lia)) as h.
        apply oks_inv in h as (b & -> & _). eauto. }
      rewrite ez in e2. injection e2 as <-. exact I.
    - pose proof (silhouette_near (diss_nonneg _ _ _ HD) HE HB HT hn32 assi false hs1 hw) as h.
      rewrite e2 in h. destruct h as [[h _] _]. exact h.
  Qed.

  Lemma ordf_f64 k : sizes n k -> (2 <= k)%nat -> ordf M n k f64_val.
  Proof.
    intros hs hk.
    assert (hv : forall x, is_val M n k x -> f64_finite x).
    { intros x [->|(med & h1 & h2 & h3)]; [exact I|]. apply (sv_finite hs hk h1 h2 h3). }
    intros x y hx hy. apply f64_lleb; auto.
  Qed.
End Value.

(** ** BUILD *)
Section Build.
  Context {Nt : Type} `{HO : OrdLaws Nt} `{HFN : FromN Nt f64}.
  Variable M : Mat Nt.
  Variable n : nat.
  Variable D : nat -> nat -> Nt.
  Hypothesis HD : diss_matrix M n D.
  Hypothesis HE : exact_from n D.
  Variable mx : Q.
  Hypothesis Hmx : forall x y, (x < n)%nat -> (y < n)%nat -> vals D x y <= mx.
  Hypothesis Hbig : mx <= 2 ^ 970.
  Hypothesis Hn : (1 <= n)%nat.
  Hypothesis Hn32 : (N.of_nat n <= 4294967295)%N.
  Hypothesis Hz : lfrom (nzero : Nt) = (lzero : f64).
  Notation v := (vals D).
  Let HM : is_matrix M n D := proj1 HD.
  Let HE' := exact_in_f64 HE.
  Let Hbig' := f64_room n Hn32 Hbig.
  Let Hn32' := f64_few n Hn32.
  Notation err := (err (Lt := f64) n mx).

  Record pb_near (l : nat) (st : list nat * list Nt) : Prop := {
    pn_len : length (fst st) = l;
    pn_inr : inr n (fst st);
    pn_dn : dn_near (Lt := f64) n D (fst st) (snd st);
    pn_greedy : greedy_to v n (2 * err) (fst st);
    pn_new : NoDup (fst st) \/ tdev v n (fst st) == 0
  }.

  Lemma pb_step_near k l st t : (1 <= l)%nat -> pb_near l st ->
    oks (pamsil_build_step (Lt := f64) M k st t) (pb_near (S l)).
  Proof.
    intros hl hg. destruct st as [meds data]. pose proof hg as [h1 h2 h3 h4 h5]. cbn [fst snd] in *.
    assert (hne : meds <> []) by (destruct meds; simpl in *; [lia|congruence]).
    unfold pamsil_build_step. rewrite map_fst_enum. pose proof h3 as [d1 d2]. rewrite d1.
    assert (hb : oks (build_next (Lt := f64) M k data (seq 0 n)) (fun b =>
      (snd b < n)%nat /\ change_near n D mx meds (snd b) (fst b) /\
      forall y, (y < n)%nat -> exists s, change_near n D mx meds y s /\ f64_val (fst b) <= f64_val s)).
    { pose proof (fun h1 h2 => pick_near (Lt := f64) (build_next_sum M data) (change_near n D mx meds) k (m := n) Hn h1 h2) as hp.
      apply hp.
      - intros i hi. apply (build_next_sum_near HD HE' Hmx Hbig' Hn Hn32'); auto.
      - intros i s hi [[hf _] _]. exact hf. }
    apply oks_inv in hb as ([x bj] & -> & hbj & (hx1 & hx2 & hx3) & hmin). cbn [bind fst snd] in *. to64.
    assert (hfx : f64_finite x) by apply hx1.
    destruct (mindist_bounds HD Hmx hbj hne h2) as [b1 _].
    assert (e : lleb x lzero = true) by (apply f64_lleb; [exact hfx|exact I|rewrite zero_val; lra]).
    rewrite e. cbn [assertb bind]. eapply oks_bind.
    - apply mapM_enum with (R := fun o (d d' : Nt) => okN d' /\ f64_finite (lfrom d') /\ f64_val (lfrom d') == vN d' /\
        vN d' == mindist v o (meds ++ [bj])).
      intros o d ho. destruct (d2 o d ho) as (k1 & k2 & k3 & k4).
      assert (hon : (o < n)%nat) by (rewrite <- d1; eapply nth_error_lt; eauto).
      unfold pamsil_upd_obj. destruct (Nat.eqb_spec o bj) as [->|hob].
      + cbn [oks]. split; [apply okN_zero|]. rewrite Hz. split; [exact I|]. rewrite vN_zero. split; [rewrite zero_val; reflexivity|].
        symmetry. apply (mindist_self (meds ++ [bj]) (v_diss HD) hbj (inr_app h2 hbj)). apply in_or_app. simpl. auto.
      + rewrite (get_ok HM) by auto. cbn [bind oks]. assert (kd : okN (D o bj)) by (apply (okD HD); auto).
        destruct (HE hon hbj) as [e1 e2].
        pose proof (mindist_snoc v o bj hne) as hmd. revert hmd.
        destruct (nltb (D o bj) d) eqn:el.
        * apply nltb_spec in el; auto. rewrite k4 in el. change (vN (D o bj)) with (v o bj) in *.
          destruct (Qlt_le_dec (v o bj) (mindist v o meds)); intros hmd; [|lra]. split; [auto|]. rewrite hmd. auto with qarith.
        * assert (hge : ~ (v o bj < mindist v o meds)).
          { intros h. rewrite <- k4 in h. apply nltb_spec in h; auto. congruence. }
          destruct (Qlt_le_dec (v o bj) (mindist v o meds)); intros hmd; [tauto|]. split; [auto|]. rewrite hmd. auto.
    - intros data' [e1 e2]. cbn [oks]. constructor; cbn [fst snd].
      + rewrite app_length. simpl. lia.
      + apply inr_app; auto.
      + split; [lia|]. intros o d' hd'. destruct (nth_error_ex data (i := o)) as [d hd].
        { rewrite <- e1. eapply nth_error_lt; eauto. }
        eapply e2; eauto.
      + apply greedy_to_snoc; auto. intros y hy. destruct (hmin y hy) as (s & (s1 & _) & s4).
        apply (close_2n (Lt := f64) HD Hmx Hn) in s1 as [_ [s1 s1']].
        apply (close_2n (Lt := f64) HD Hmx Hn) in hx1 as [_ [x1 x1']]. to64. lra.
      + assert (hp : forall l', inr n l' -> 0 <= tdev v n l').
        { intros l' hl'. apply sumQ_nonneg. intros o ho. apply in_seq in ho.
          apply mindist_nonneg with n; [apply (v_diss HD)|lia|auto]. }
        assert (ht : tdev v n (meds ++ [bj]) <= tdev v n meds).
        { unfold tdev. apply sumQ_le. intros o ho. rewrite (mindist_snoc v o bj hne).
          destruct (Qlt_le_dec (v o bj) (mindist v o meds)); lra. }
        pose proof (hp (meds ++ [bj]) (inr_app h2 hbj)) as hp1.
        destruct h5 as [h5|h5]; [|right; lra].
        destruct (Qlt_le_dec (f64_val x) 0) as [hlt|hge].
        * left. apply NoDup_snoc; auto. intros hin. specialize (hx3 hin). to64. lra.
        * right. assert (hz : tdev v n meds == 0); [|lra].
          unfold tdev. rewrite (sumQ_ext _ (fun _ => 0) _); [apply sumQ_zero|].
          intros o ho. apply in_seq in ho. destruct (hmin o) as (s & (_ & s2 & _) & s4); [lia|]. to64.
          destruct (mindist_bounds HD Hmx (o := o) (meds := meds)) as [b3 b4]; auto; [lia|]. lra.
  Qed.

  Lemma pamsil_build_near k : (1 <= k)%nat ->
    oks (pamsil_build_initialize (Lt := f64) M k) (fun meds => length meds = k /\ inr n meds /\
      greedy_to v n (2 * err) meds /\ (NoDup meds \/ tdev v n meds == 0)).
  Proof.
    intros hk. unfold pamsil_build_initialize.
    pose proof (build_first_near HD HE' Hmx Hbig' Hn Hn32' k) as hf.
    apply oks_inv in hf as ([x b] & -> & hb & hx & hmin). cbn [bind fst snd] in *. rewrite (len_n HM).
    eapply oks_bind.
    - apply mapM_seq with (R := fun o d => d = D o b). intros o ho. rewrite (get_ok HM) by auto. cbn [oks]. auto.
    - intros data [hl hd]. eapply oks_bind with (P := pb_near k).
      + assert (h0 : pb_near 1 ([b], data)).
        { constructor; cbn [fst snd]; auto.
          - intros m [<-|[]]. auto.
          - apply (dn_entry HD HE'); [auto|]. intros o d ho. exists b. split; [auto|]. split; [auto|]. reflexivity.
          - intros i y hi hy. simpl in hi. assert (i = 0%nat) as -> by lia. cbn [firstn List.app].
            destruct (hmin y hy) as (s & s1 & s2).
            apply (app_mono (Lt := f64) HD Hmx Hn) with (t' := (2 * n)%nat) (q' := tdev v n [y]) in s1; [|lia|reflexivity].
            apply (app_mono (Lt := f64) HD Hmx Hn) with (t' := (2 * n)%nat) (q' := tdev v n [b]) in hx; [|lia|reflexivity].
            apply (close_2n (Lt := f64) HD Hmx Hn) in s1 as [_ [s1 s1']].
            apply (close_2n (Lt := f64) HD Hmx Hn) in hx as [_ [x1 x1']]. to64. lra.
          - left. constructor; auto. constructor. }
        assert (G : forall m l st, (1 <= l)%nat -> pb_near l st ->
          oks (foldM (pamsil_build_step (Lt := f64) M k) (seq l m) st) (pb_near (l + m))).
        { induction m as [|m IH]; intros l st hl1 hg; cbn [seq foldM].
          - cbn [oks]. rewrite Nat.add_0_r. auto.
          - eapply oks_bind; [apply pb_step_near; eauto|]. intros st' hg'.
            replace (l + S m)%nat with (S l + m)%nat by lia. apply IH; [lia|auto]. }
        specialize (G (k - 1)%nat 1%nat ([b], data) ltac:(lia) h0). replace (1 + (k - 1))%nat with k in G by lia. exact G.
      + intros [meds d'] [q1 q2 q3 q4 q5]. cbn [fst snd oks] in *. auto.
  Qed.
End Build.
