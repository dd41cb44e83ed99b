(** FloatBuildMsc.v -- binary64: the BUILD initialization of pammedsil.rs, and pammedsil *)
From Coq Require Import ZArith QArith Qpower Lqa Lia.
From Coq.Floats Require Import SpecFloat.
From Verif Require Import Base Num M_Mat M_Util M_Fasterpam M_Pam M_Silhouette M_Msc M_Pammedsil Inst Hoare Spec SpecFacts Laws
  FloatFacts FloatExact FloatRound PamShape PamExact PamFacts SilFacts MscShape MscExact MscFacts MscMain BuildFacts BuildMsc
  FloatSil FloatLoss FloatMain FloatFmt FloatSwap FloatMsc FloatBuild.
Set Implicit Arguments.
Open Scope Q_scope.

(** a sum of ratios which starts with zero *)
Lemma ratio_sum_zero (g : nat -> f64) (q : nat -> Q) n : (1 <= n)%nat -> fits53 n ->
  (forall i, (i < n)%nat -> within 0 1 (g i) /\ close (2 ^ (-53)) (q i) (g i)) ->
  within 0 (cnt n) (fold_left ladd (map g (seq 0 n)) lzero) /\
  close (sum_err n) (sumQ q (seq 0 n)) (fold_left ladd (map g (seq 0 n)) lzero).
Proof.
  intros hn hf h. destruct n as [|n]; [lia|]. cbn [seq map fold_left].
  destruct (h 0%nat ltac:(lia)) as [h1 h2].
  assert (e : f64_finite (ladd lzero (g 0%nat)) /\ f64_val (ladd lzero (g 0%nat)) == f64_val (g 0%nat)).
  { destruct h1 as [hfin _]. destruct (g 0%nat) as [s|s| |s m e]; cbn in *; try contradiction; auto.
    - destruct s; split; auto; reflexivity.
    - split; [exact hfin|reflexivity]. }
  destruct e as [e1 e2].
  assert (h1' : within 0 (cnt 1) (ladd lzero (g 0%nat))).
  { split; [exact e1|]. rewrite e2. change (cnt 1) with 1. apply h1. }
  assert (h2' : close (sum_err 1) (q 0%nat) (ladd lzero (g 0%nat))).
  { eapply close_le with (e := 2 ^ (-53)); [unfold sum_err; change (cnt 1) with 1; apply Qle_bool_iff; reflexivity|].
    destruct h2 as [h2 h3]. split; rewrite e2; auto. }
  destruct (@ratio_fold g q (seq 1 n) 1 (ladd lzero (g 0%nat)) (q 0%nat)) as [b1 b2]; auto.
  - rewrite seq_length. exact hf.
  - intros i hi. apply in_seq in hi. apply h. lia.
  - rewrite seq_length in *. split; [exact b1|]. eapply close_ext; [| |exact b2]; [reflexivity|].
    cbn [sumQ fold_right]. reflexivity.
Qed.

Lemma fold_snd_map A B C (f : C -> B -> C) (rs : list (A * B)) s :
  fold_left (fun s x => f s (snd x)) rs s = fold_left f (map snd rs) s.
Proof. revert s. induction rs; intros s; cbn [fold_left map]; auto. Qed.

(** up to [e] greedy, object 0 being considered for the first medoid only *)
Definition greedy_but_0_to (v : diss) (n : nat) (e : Q) (meds : list nat) : Prop :=
  forall i y, (i < length meds)%nat -> (y < n)%nat -> (i = 0%nat \/ y <> 0%nat) ->
    tdev v n (firstn (S i) meds) <= tdev v n (firstn i meds ++ [y]) + e.

Lemma greedy_but_0_to_snoc v n e meds x : greedy_but_0_to v n e meds -> meds <> [] ->
  (forall y, (1 <= y < n)%nat -> tdev v n (meds ++ [x]) <= tdev v n (meds ++ [y]) + e) -> greedy_but_0_to v n e (meds ++ [x]).
Proof.
  intros hg hne hx i y hi hy h0. rewrite app_length in hi. cbn [length] in hi.
  destruct (Nat.eq_dec i (length meds)) as [->|hi'].
  - rewrite (firstn_all2 (n := S (length meds))) by (rewrite app_length; cbn [length]; lia).
    rewrite firstn_app, Nat.sub_diag, firstn_all. cbn [firstn]. rewrite app_nil_r. apply hx.
    destruct h0 as [h0|h0]; [destruct meds; [congruence|discriminate h0]|lia].
  - rewrite !firstn_app. replace (S i - length meds)%nat with 0%nat by lia. replace (i - length meds)%nat with 0%nat by lia.
    cbn [firstn]. rewrite !app_nil_r. apply hg; auto. lia.
Qed.

Section Build3.
  Context {Nt : Type} `{HO : OrdLaws Nt} `{HFN : FromN Nt f64}.
  Variable M : Mat Nt.
  Variable n : nat.
  Variable D : nat -> nat -> Nt.
  Hypothesis HD : diss_matrix M n D.
  Hypothesis HE : exact_from n D.
  Variable mx : Q.
  Hypothesis Hmx : forall x y, (x < n)%nat -> (y < n)%nat -> vals D x y <= mx.
  Hypothesis Hbig : mx <= 2 ^ 970.
  Hypothesis Hn : (1 <= n)%nat.
  Hypothesis Hn32 : (N.of_nat n <= 4294967295)%N.
  Notation v := (vals D).
  Let HM : is_matrix M n D := proj1 HD.
  Let HE' := exact_in_f64 HE.
  Let Hbig' := f64_room n Hn32 Hbig.
  Let Hn32' := f64_few n Hn32.
  Let Hv : dissimilarity n v := v_diss HD.
  Notation app := (app (Lt := f64) n mx).
  Notation err := (err (Lt := f64) n mx).
  Notation change_near := (change_near n D mx).

  Lemma build_next1_near k meds dn : meds <> [] -> inr n meds -> dn_near (Lt := f64) n D meds dn ->
    oks (build_next (Lt := f64) M k dn (seq 1 (n - 1))) (fun b =>
      f64_finite (fst b) /\ (f64_val (fst b) == 0 \/ ((1 <= snd b < n)%nat /\ change_near meds (snd b) (fst b))) /\
      f64_val (fst b) <= 0 /\
      forall y, (1 <= y < n)%nat -> exists s, change_near meds y s /\ f64_val (fst b) <= f64_val s).
  Proof.
    intros hne hin hd. unfold build_next. eapply oks_mono.
    - apply foldM_oks with (I := fun pre (b : f64 * nat) => f64_finite (fst b) /\
        (f64_val (fst b) == 0 \/ ((1 <= snd b < n)%nat /\ change_near meds (snd b) (fst b))) /\ f64_val (fst b) <= 0 /\
        forall y, In y pre -> exists s, change_near meds y s /\ f64_val (fst b) <= f64_val s).
      + cbn [fst snd]. pose proof zero_val as hz. split; [exact I|]. split; [left; rewrite hz; reflexivity|]. split; [rewrite hz; lra|]. intros y [].
      + intros pre i post b e (hb0 & hb1 & hb2 & hb3). apply nth_split_seq in e as [ei hlen].
        eapply oks_bind; [apply (build_next_sum_near HD HE' Hmx Hbig' Hn Hn32') with (meds := meds); auto; lia|].
        intros s hs. cbv beta in hs. cbn [oks].
        replace (i =? 0)%nat with false by (symmetry; apply Nat.eqb_neq; lia). cbn [orb].
        assert (hfs : f64_finite s) by apply hs.
        destruct (lltb s (fst b)) eqn:el; cbn [fst snd].
        * apply f64_lltb in el; auto. split; [auto|]. split; [right; split; [lia|auto]|]. split; [lra|].
          intros y hy. apply in_app_or in hy as [hy|[<-|[]]]; [|exists s; split; [auto|lra]].
          destruct (hb3 y hy) as (s' & q1 & q2). exists s'. split; [auto|lra].
        * apply f64_lltb_false in el; auto. split; [auto|]. split; [auto|]. split; [auto|].
          intros y hy. apply in_app_or in hy as [hy|[<-|[]]]; [auto|]. exists s. auto.
    - intros b (h0 & h1 & h2 & h3). split; [auto|]. split; [auto|]. split; [auto|].
      intros y hy. apply h3. apply in_seq. lia.
  Qed.

  Record build3_near (l : nat) (st : b3st Nt f64) : Prop := {
    b3n_len : length (b3_meds st) = l;
    b3n_inr : inr n (b3_meds st);
    b3n_nodup : NoDup (b3_meds st);
    b3n_dlen : length (b3_data st) = n;
    b3n_data : forall o r, nth_error (b3_data st) o = Some r -> ia3_rec (Lt := f64) M (b3_meds st) o r;
    b3n_loss : (2 <= l)%nat -> loss_near n D (b3_meds st) (b3_loss st);
    b3n_greedy : greedy_but_0_to v n (2 * err) (b3_meds st);
    b3n_new : forall i, (1 <= i < l)%nat -> (1 <= nth i (b3_meds st) 0)%nat
  }.

  (** no further medoid but object 0 lowers the total deviation noticeably *)
  Definition no_gain (meds : list nat) : Prop := forall y, (1 <= y < n)%nat -> tdev v n meds <= tdev v n (meds ++ [y]) + err.

  Lemma ia3_rec_D meds o r : meds <> [] -> inr n meds -> (o < n)%nat -> ia3_rec (Lt := f64) M meds o r ->
    exists m, (m < n)%nat /\ dd (near3 r) = D o m /\ v o m == mindist v o meds.
  Proof.
    intros hne hin ho hr. pose proof (emb_vals HD) as [he hdg].
    destruct (le_lt_dec 2 (length meds)) as [hk|hk].
    - pose proof (ia3_obj_ok (Lt := f64) HM True hin ho hk) as h. unfold ia3_rec in hr. rewrite hr in h.
      cbn [oks fst snd] in h. destruct h as [_ (a & b & h1 & h2 & h3 & [h4 h5] & _ & h6 & _)].
      specialize (h6 I hdg v he). destruct h6 as [h6 _]. exists (nth a meds 0%nat).
      split; [apply inr_nth; auto|]. split; [auto|].
      symmetry. apply nearest_mindist. split; auto.
    - destruct meds as [|b [|c meds]]; [congruence| |simpl in hk; lia].
      assert (hb : (b < n)%nat) by (apply hin; simpl; auto).
      pose proof (ia3_rec_one (Lt := f64) HD hb ho) as h2. unfold ia3_rec in *. rewrite hr in h2.
      injection h2 as -> _. exists b. cbn [near3 dd]. split; [auto|]. split; [auto|]. reflexivity.
  Qed.

  Lemma build3_dn_near l st : (1 <= l)%nat -> build3_near l st ->
    dn_near (Lt := f64) n D (b3_meds st) (map (fun r => dd (near3 r)) (b3_data st)).
  Proof.
    intros hl [h1 h2 h3 h4 h5 h6 h7 h8]. apply (dn_entry HD HE'); [rewrite map_length; auto|].
    intros o d h. rewrite nth_error_map in h. destruct (nth_error (b3_data st) o) as [r|] eqn:e; [|discriminate].
    injection h as <-.
    assert (ho : (o < n)%nat) by (rewrite <- h4; eapply nth_error_lt; eauto).
    apply ia3_rec_D; auto. destruct (b3_meds st); simpl in *; [lia|congruence].
  Qed.

  Lemma build3_loss_near meds data : inr n meds -> data3_ok n D True meds data ->
    loss_near n D meds (fold_left ladd (map (rec_ratio (Lt := f64)) data) lzero).
  Proof.
    intros hin [hl hd].
    set (d0 := mkReco (DP None nzero) (DP None nzero) (DP (Nt := Nt) None nzero)).
    assert (hd' : forall o, (o < n)%nat -> rec3 n D True (length meds) meds o (nth o data d0)).
    { intros o ho. apply hd. apply nth_error_nth'. lia. }
    assert (em : map (rec_ratio (Lt := f64)) data = map (fun o => rec_ratio (nth o data d0)) (seq 0 n)).
    { rewrite <- hl. rewrite <- (map_map (fun o => nth o data d0)). f_equal. symmetry. apply map_nth_seq. }
    rewrite em.
    destruct (@ratio_sum_zero (fun o => rec_ratio (nth o data d0)) (fun o => near_ratio v o meds) n Hn) as [h1 h2].
    - apply fits_u32. auto.
    - intros o ho. apply (rec_ratio_in HD HE); auto.
    - split; [exact h1|exact h2].
  Qed.

  Lemma build3_step_near k l st : (1 <= l)%nat -> build3_near l st ->
    oks (build3_step M k st l) (fun c => match c with
      | Next s => build3_near (S l) s
      | Break s => s = st /\ BuildMsc.stopped n D (b3_meds st) /\ no_gain (b3_meds st) end).
  Proof.
    intros hl hg. pose proof hg as [h1 h2 h3 h4 h5 h6 h7 h8].
    assert (hne : b3_meds st <> []) by (destruct (b3_meds st); simpl in *; [lia|congruence]).
    unfold build3_step. rewrite map_fst_enum, h4, skipn_seq0.
    pose proof (build_next1_near k hne h2 (build3_dn_near hl hg)) as hb.
    apply oks_inv in hb as ([x bj] & -> & hf & hx & hx0 & hmin). cbn [bind fst snd] in *.
    destruct (lleb lzero x) eqn:ex.
    - cbn [oks]. split; auto. apply f64_lleb in ex; [|exact I|auto]. rewrite zero_val in ex. split.
      + intros y hy. destruct (hmin y hy) as (s & (_ & s2 & _) & s4).
        to64. pose proof (mindist_nonneg (b3_meds st) Hv (proj2 hy) h2). lra.
      + intros y hy. destruct (hmin y hy) as (s & (s1 & _) & s4).
        apply (close_2n (Lt := f64) HD Hmx Hn) in s1 as [_ [s1 s1']]. to64. lra.
    - apply f64_lleb_false in ex; [|exact I|auto]. rewrite zero_val in ex.
      destruct hx as [hx|[hbj (hx1 & hx2 & hx3)]]; [lra|].
      assert (hnew : ~ In bj (b3_meds st)) by (intros hin; specialize (hx3 hin); to64; lra).
      destruct hbj as [hbj0 hbj]. pose proof (proj2 (emb_vals HD)) as hdg.
      eapply oks_bind.
      + apply mapM_enum with (R := fun o r (p : Reco Nt * f64) =>
          ia3_rec (Lt := f64) M (b3_meds st ++ [bj]) o (fst p) /\ snd p = rec_ratio (fst p)).
        intros o r hr. assert (ho : (o < n)%nat) by (rewrite <- h4; eapply nth_error_lt; eauto).
        pose proof (build3_upd_obj_eq (Lt := f64) HM l r ho hbj) as hu.
        apply oks_inv in hu as (r' & es & hu).
        eapply oks_mono; [exact hu|]. intros p (e1 & e2 & e3 & e4 & e5).
        rewrite (e1 hdg) in *. split; [|auto].
        apply ia3_rec_snoc with (r := r); auto. rewrite h1. auto.
      + intros rs [hrl hr]. cbn [oks].
        assert (hr' : forall o p, nth_error rs o = Some p -> ia3_rec (Lt := f64) M (b3_meds st ++ [bj]) o (fst p) /\
          snd p = rec_ratio (fst p)).
        { intros o p hp. destruct (nth_error_ex (b3_data st) (i := o)) as [r0 hr0].
          { rewrite <- hrl. eapply nth_error_lt; eauto. }
          eapply hr; eauto. }
        assert (hin' : inr n (b3_meds st ++ [bj])) by (apply inr_app; auto).
        assert (hnd' : NoDup (b3_meds st ++ [bj])) by (apply NoDup_snoc; auto).
        assert (hdat : forall o r, nth_error (map fst rs) o = Some r -> ia3_rec (Lt := f64) M (b3_meds st ++ [bj]) o r).
        { intros o r h. rewrite nth_error_map in h. destruct (nth_error rs o) as [p|] eqn:e; [|discriminate].
          injection h as <-. apply hr' in e. apply e. }
        assert (hl' : length (b3_meds st ++ [bj]) = S l) by (rewrite app_length; simpl; lia).
        assert (hk' : (2 <= length (b3_meds st ++ [bj]))%nat) by lia.
        assert (hdl : length (map fst rs) = n) by (rewrite map_length; lia).
        destruct (ia3_data HD (map fst rs) hin' hnd' hk' hdl hdat) as [hd3 _].
        constructor; cbn [b3_meds b3_data b3_loss]; auto.
        * intros _. rewrite fold_snd_map with (f := ladd).
          replace (map snd rs) with (map (rec_ratio (Lt := f64)) (map fst rs)); [apply build3_loss_near; auto|].
          rewrite map_map. apply map_ext_in. intros p hp. apply In_nth_error in hp as [o hp]. symmetry. apply (hr' o p hp).
        * apply greedy_but_0_to_snoc; auto. intros y hy. destruct (hmin y hy) as (s & (s1 & _) & s4).
          apply (close_2n (Lt := f64) HD Hmx Hn) in s1 as [_ [s1 s1']]. apply (close_2n (Lt := f64) HD Hmx Hn) in hx1 as [_ [x1 x1']]. to64. lra.
        * intros i hi. destruct (Nat.eq_dec i l) as [->|hne'].
          -- rewrite app_nth2 by lia. rewrite h1, Nat.sub_diag. exact hbj0.
          -- rewrite app_nth1 by lia. apply h8. lia.
  Qed.

  Lemma build3_all_near k : (1 <= k)%nat ->
    oks (pammedsil_build_initialize (Lt := f64) M k) (fun st => exists l, (1 <= l <= k)%nat /\ build3_near l st /\
      (l = k \/ BuildMsc.stopped n D (b3_meds st) /\ no_gain (b3_meds st))).
  Proof.
    intros hk. unfold pammedsil_build_initialize. pose proof HM as (e1 & e2 & e3).
    pose proof (build_first_near HD HE' Hmx Hbig' Hn Hn32' k) as hf.
    apply oks_inv in hf as ([x b] & -> & hb & hx & hmin). cbn [bind fst snd] in *. rewrite e1.
    eapply oks_bind with (P := fun data => length data = n /\
      forall o r, nth_error data o = Some r -> ia3_rec (Lt := f64) M [b] o r).
    - apply mapM_seq with (R := fun o r => ia3_rec (Lt := f64) M [b] o r). intros o ho.
      rewrite e3 by auto. cbn [bind oks]. apply (ia3_rec_one HD); auto.
    - intros data [hl hd].
      apply forM_oks with (I := fun pre st => build3_near (S (length pre)) st).
      + constructor; cbn [b3_meds b3_data b3_loss length]; auto; try lia.
        * intros m [<-|[]]. auto.
        * constructor; auto. constructor.
        * intros i y hi hy _. simpl in hi. assert (i = 0%nat) as -> by lia. cbn [firstn List.app].
          destruct (hmin y hy) as (s & s1 & s2).
          assert (hc : forall z (q : f64), app n z q -> lfin q /\ lclose err z q) by (intros; apply (app_close (Lt := f64) HD Hmx Hn) with (t := n); auto; lia).
          apply hc in s1 as [_ [s1 s1']]. apply hc in hx as [_ [x1 x1']]. to64. lra.
      + intros pre l post st e hi. apply nth_split_seq in e as [el hlk]. simpl in el.
        rewrite <- el in hi. eapply oks_mono; [apply build3_step_near; eauto; lia|].
        intros [s|s].
        * intros hs. rewrite app_length. cbn [length]. replace (S (length pre + 1)) with (S l) by lia. auto.
        * intros (-> & hz). exists l. split; [lia|]. auto.
      + intros st hi. rewrite seq_length in hi. exists (S (k - 1)). split; [lia|]. split; [auto|]. left. lia.
  Qed.

  Lemma build3_q l st : (2 <= l)%nat -> build3_near l st ->
    q_all n D l (mkM (b3_meds st) (b3_data st) [] (b3_loss st) 0 0 0).
  Proof.
    intros hl [h1 h2 h3 h4 h5 h6 h7 h8].
    assert (hk : (2 <= length (b3_meds st))%nat) by lia.
    destruct (ia3_data HD (b3_data st) h2 h3 hk h4 h5) as [hd1 hd2].
    constructor; cbn [m_med m_data m_loss]; auto. constructor; auto.
  Qed.
End Build3.
