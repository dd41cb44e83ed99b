(** FloatBuild.v -- rounding: BUILD, pam with BUILD, the best medoid of a cluster, and alternating *)
From Coq Require Import ZArith QArith Qpower Lqa Lia.
From Coq.Floats Require Import SpecFloat.
From Verif Require Import Base Num M_Mat M_Util M_Fasterpam M_Pam Inst Hoare Spec SpecFacts Laws FloatFacts FloatExact
  FloatRound PamShape PamExact PamFacts FloatSil FloatLoss FloatMain FloatFmt FloatSwap BuildFacts M_Alternating ChooseFacts AltFacts.
Set Implicit Arguments.
Open Scope Q_scope.

(** the first candidate with the smallest evaluated sum *)
Lemma pick_near {Lt : Type} `{LF : LossFmt Lt} (f : nat -> res Lt) (R : nat -> Lt -> Prop) k m :
  (1 <= m)%nat -> (forall i, (i < m)%nat -> oks (f i) (R i)) -> (forall i s, (i < m)%nat -> R i s -> lfin s) ->
  oks (foldM (fun best i => sum <- f i ;; Ok (if (i =? 0)%nat || lltb sum (fst best) then (sum, i) else best)) (seq 0 m) (lzero, k))
    (fun b => (snd b < m)%nat /\ R (snd b) (fst b) /\
      forall y, (y < m)%nat -> exists s, R y s /\ lval (fst b) <= lval s).
Proof.
  intros hm hf hR. eapply oks_mono.
  - apply foldM_seq with (I := fun t (b : Lt * nat) => t = 0%nat \/ ((snd b < m)%nat /\ R (snd b) (fst b) /\
      forall y, (y < t)%nat -> exists s, R y s /\ lval (fst b) <= lval s)); [auto|].
    intros i b hi hb. eapply oks_bind; [apply hf; auto|]. intros s hs. cbn [oks]. right.
    pose proof (hR i s hi hs) as hfs.
    destruct ((i =? 0)%nat || lltb s (fst b)) eqn:e; cbn [fst snd].
    + split; [auto|]. split; [auto|]. intros y hy. destruct (Nat.eq_dec y i) as [->|hne]; [exists s; split; [auto|lra]|].
      destruct hb as [->|(h1 & h2 & h3)]; [lia|].
      apply orb_true_iff in e as [e|e]; [apply Nat.eqb_eq in e; lia|].
      apply fmt_lltb in e; [|auto|apply (hR _ _ h1 h2)].
      destruct (h3 y) as (s' & q1 & q2); [lia|]. exists s'. split; [auto|lra].
    + apply orb_false_iff in e as [e1 e2]. apply Nat.eqb_neq in e1.
      destruct hb as [->|(h1 & h2 & h3)]; [lia|]. split; [auto|]. split; [auto|].
      intros y hy. destruct (Nat.eq_dec y i) as [->|hne]; [|apply h3; lia].
      exists s. split; [auto|]. apply fmt_lltb_false in e2; auto. apply (hR _ _ h1 h2).
  - intros b [h|h]; [lia|exact h].
Qed.

(** every further medoid is, up to [e], the one lowering the total deviation most *)
Definition greedy_to (v : diss) (n : nat) (e : Q) (meds : list nat) : Prop :=
  forall i y, (i < length meds)%nat -> (y < n)%nat ->
    tdev v n (firstn (S i) meds) <= tdev v n (firstn i meds ++ [y]) + e.

Lemma greedy_to_snoc v n e meds x : greedy_to v n e meds ->
  (forall y, (y < n)%nat -> tdev v n (meds ++ [x]) <= tdev v n (meds ++ [y]) + e) -> greedy_to v n e (meds ++ [x]).
Proof.
  intros hg hx i y hi hy. rewrite app_length in hi. cbn [length] in hi.
  destruct (Nat.eq_dec i (length meds)) as [->|hne].
  - rewrite (firstn_all2 (n := S (length meds))) by (rewrite app_length; cbn [length]; lia).
    rewrite firstn_app, Nat.sub_diag, firstn_all. cbn [firstn]. rewrite app_nil_r. auto.
  - rewrite !firstn_app. replace (S i - length meds)%nat with 0%nat by lia. replace (i - length meds)%nat with 0%nat by lia.
    cbn [firstn]. rewrite !app_nil_r. apply hg; auto. lia.
Qed.

Section Build.
  Context {Nt : Type} `{HO : OrdLaws Nt} {Lt : Type} `{LF : LossFmt Lt} `{HFN : FromN Nt Lt}.
  Variable M : Mat Nt.
  Variable n : nat.
  Variable D : nat -> nat -> Nt.
  Hypothesis HD : diss_matrix M n D.
  Hypothesis HE : exact_in n D.
  Variable mx : Q.
  Hypothesis Hmx : forall x y, (x < n)%nat -> (y < n)%nat -> vals D x y <= mx.
  Hypothesis Hbig : 4 * cnt n * mx <= lbig.
  Hypothesis Hn : (1 <= n)%nat.
  Hypothesis Hn32 : 64 * cnt n * lunit <= 1.
  Notation v := (vals D).
  Let HM : is_matrix M n D := proj1 HD.
  Let Hv : dissimilarity n v := v_diss HD.
  Notation app := (app n mx).
  Notation err := (err n mx).

  Lemma mindist_bounds o meds : (o < n)%nat -> meds <> [] -> inr n meds -> 0 <= mindist v o meds /\ mindist v o meds <= mx.
  Proof.
    intros ho hne hin. split; [apply (mindist_nonneg meds Hv ho hin)|].
    destruct meds as [|m l]; [congruence|].
    apply Qle_trans with (v o m); [apply mindist_le; simpl; auto|apply Hmx; auto]. apply hin. simpl. auto.
  Qed.

  Lemma build_first_sum_near i : (i < n)%nat -> oks (build_first_sum M i) (app n (tdev v n [i])).
  Proof.
    intros hi. unfold build_first_sum. rewrite (len_n HM). unfold tdev.
    pose proof (nmx_pos HD Hmx Hn) as hnm.
    apply foldM_seq with (I := fun t (s : Lt) => app t (sumQ (fun o => mindist v o [i]) (seq 0 t)) s).
    - apply (app_zero HD Hmx Hn).
    - intros j s hj hs.
      assert (E : sumQ (fun o => mindist v o [i]) (seq 0 (S j)) == sumQ (fun o => mindist v o [i]) (seq 0 j) + v j i).
      { rewrite sumQ_seq_S. reflexivity. }
      destruct (Nat.eqb_spec j i) as [->|hne]; cbn [negb].
      + cbn [oks]. eapply (app_mono HD Hmx Hn); [| |exact hs]; [lia|]. rewrite E. pose proof (proj1 Hv i hi). lra.
      + rewrite (get_ok HM) by auto. cbn [bind oks].
        assert (hb : - (cnt n * mx) <= sumQ (fun o => mindist v o [i]) (seq 0 (S j)) /\
                     sumQ (fun o => mindist v o [i]) (seq 0 (S j)) <= cnt n * mx).
        { apply (sum_short_bound HD Hmx Hn); [rewrite seq_length; lia|].
          intros o ho. apply in_seq in ho. pose proof (mx_pos HD Hmx Hn).
          destruct (@mindist_bounds o [i]) as [b1 b2]; [lia|discriminate|intros m [<-|[]]; auto|]. lra. }
        rewrite E in hb.
        eapply (app_mono HD Hmx Hn); [| |apply (app_add HD Hmx Hbig Hn Hn32) with (t1 := j) (t2 := 0%nat)
          (q1 := sumQ (fun o => mindist v o [i]) (seq 0 j)) (q2 := v j i); [lia|lra|lra|exact hs|apply (app_D HE mx); auto]].
        * lia.
        * symmetry. exact E.
  Qed.

  (** the cached dissimilarities to the nearest of the medoids so far *)
  Definition dn_near (meds : list nat) (dn : list Nt) : Prop :=
    length dn = n /\ forall o d, nth_error dn o = Some d ->
      okN d /\ lfin (lfrom d) /\ lval (lfrom d) == vN d /\ vN d == mindist v o meds.

  Lemma dn_entry meds dn : length dn = n ->
    (forall o d, nth_error dn o = Some d -> exists m, (m < n)%nat /\ d = D o m /\ v o m == mindist v o meds) -> dn_near meds dn.
  Proof.
    intros hl h. split; [auto|]. intros o d hd. assert (ho : (o < n)%nat) by (rewrite <- hl; eapply nth_error_lt; eauto).
    destruct (h o d hd) as (m & hm & -> & e). destruct (HE ho hm) as [e1 e2]. split; [apply (okD HD); auto|]. auto.
  Qed.

  (** the evaluated change for candidate [i] *)
  Definition change_near (meds : list nat) (i : nat) (s : Lt) : Prop :=
    app (2 * n) (tdev v n (meds ++ [i]) - tdev v n meds) s /\
    lval s <= - mindist v i meds /\ (In i meds -> lval s == 0).

  Lemma build_next_sum_near meds dn i : meds <> [] -> inr n meds -> dn_near meds dn -> (i < n)%nat ->
    oks (build_next_sum M dn i) (change_near meds i).
  Proof.
    intros hne hin [hl hd] hi. unfold build_next_sum.
    pose proof (nmx_pos HD Hmx Hn) as hnm. pose proof (mx_nmx HD Hmx Hn) as hmn.
    destruct (nth_error_ex dn (i := i)) as [d0 hd0]; [lia|]. rewrite (idx_some _ _ hd0).
    cbn [bind]. destruct (hd i d0 hd0) as (_ & e1 & e2 & v0).
    destruct (mindist_bounds hi hne hin) as [bi1 bi2].
    pose (g := fun o => if (o =? i)%nat then 0 else mindist v o (meds ++ [i]) - mindist v o meds).
    assert (hne' : meds ++ [i] <> []) by (destruct meds; discriminate).
    assert (hin' : inr n (meds ++ [i])) by (apply inr_app; auto).
    eapply oks_mono.
    - apply foldM_enum with (I := fun t (s : Lt) => app (2 * t) (- mindist v i meds + sumQ g (seq 0 t)) s /\
        lval s <= - mindist v i meds /\ (In i meds -> lval s == 0)).
      + assert (hval : lval (lneg (lfrom d0)) == - mindist v i meds).
        { rewrite (proj2 (fmt_neg _ e1)), e2, v0. reflexivity. }
        split; [split; [apply (fmt_neg _ e1)|]|].
        * change (cnt (2 * 0)) with 0. unfold lclose. rewrite hval. cbn [sumQ fold_right seq]. lra.
        * split; [lra|]. intros hm. rewrite hval, (mindist_self meds Hv hi hin hm). reflexivity.
      + intros o d s ho (hs1 & hs2 & hs3). destruct (hd o d ho) as (kd & e3 & e4 & v1).
        assert (hon : (o < n)%nat) by (rewrite <- hl; eapply nth_error_lt; eauto).
        pose proof (sumQ_seq_S g o) as E.
        assert (stay : g o == 0 -> app (2 * S o) (- mindist v i meds + sumQ g (seq 0 (S o))) s /\
          lval s <= - mindist v i meds /\ (In i meds -> lval s == 0)).
        { intros hz. split; [|auto]. eapply (app_mono HD Hmx Hn); [| |exact hs1]; [lia|]. rewrite E, hz. lra. }
        destruct (Nat.eqb_spec o i) as [->|hoi]; cbn [negb].
        * cbn [oks]. apply stay. unfold g. rewrite Nat.eqb_refl. reflexivity.
        * assert (hgo : g o == mindist v o (meds ++ [i]) - mindist v o meds).
          { unfold g. replace (o =? i)%nat with false by (symmetry; apply Nat.eqb_neq; auto). reflexivity. }
          rewrite (mindist_snoc v o i hne) in hgo.
          rewrite (get_ok HM) by auto. cbn [bind oks].
          assert (kD : okN (D o i)) by (apply (okD HD); auto).
          destruct (HE hon hi) as [e5 e6]. change (vN (D o i)) with (v o i) in e6.
          pose proof (nltb_spec (D o i) d kD kd) as hlt. change (vN (D o i)) with (v o i) in hlt.
          destruct (nltb (D o i) d).
          2:{ assert (d1 : vN d <= v o i) by (apply Qnot_lt_le; intros q; apply hlt in q; discriminate).
              apply stay. rewrite hgo. destruct (Qlt_le_dec (v o i) (mindist v o meds)); lra. }
          assert (d1 : v o i < vN d) by (apply hlt; auto). clear hlt.
          assert (hgo' : g o == v o i - vN d).
          { rewrite hgo. destruct (Qlt_le_dec (v o i) (mindist v o meds)); lra. }
          assert (hb : - (cnt n * mx) <= sumQ g (seq 0 (S o)) /\ sumQ g (seq 0 (S o)) <= cnt n * mx).
          { apply (sum_short_bound HD Hmx Hn); [rewrite seq_length; lia|].
            intros x hx. apply in_seq in hx. pose proof (mx_pos HD Hmx Hn). unfold g.
            destruct (x =? i)%nat; [lra|].
            destruct (@mindist_bounds x meds) as [b1 b2]; auto; [lia|].
            destruct (@mindist_bounds x (meds ++ [i])) as [b3 b4]; auto; [lia|]. lra. }
          rewrite E in hb.
          destruct (mindist_bounds hon hne hin) as [bo1 bo2].
          pose proof (v_pos HD hon hi). pose proof (Hmx hon hi). pose proof Hbig as hbg.
          assert (ht : app 1 (v o i - vN d) (lsub (lfrom (D o i)) (lfrom d))).
          { destruct (@fmt_sub Lt _ _ (lfrom (D o i)) (lfrom d) (4 * cnt n * mx) e5 e3) as [g1 g2]; [lra|lra|exact hbg|].
            split; [exact g1|]. eapply lclose_ext; [| |exact g2]; [|lra]. change (cnt 1) with 1. unfold dlt. lra. }
          assert (hle0 : lval (lsub (lfrom (D o i)) (lfrom d)) <= 0).
          { apply fmt_sub_le; auto; lra. }
          split; [|split].
          -- eapply (app_mono HD Hmx Hn); [| |apply (app_add HD Hmx Hbig Hn Hn32) with (t1 := (2 * o)%nat) (t2 := 1%nat)
               (q1 := - mindist v i meds + sumQ g (seq 0 o)) (q2 := v o i - vN d); [lia|lra|lra|exact hs1|exact ht]].
             ++ lia.
             ++ rewrite E, hgo'. ring.
          -- destruct hs1 as [f1 [c1 c1']]. destruct ht as [f2 [c2 c2']].
             apply Qle_trans with (lval s); [|exact hs2].
             pose proof (few_errors HD Hmx Hn Hn32 (t := (2 * o + 1)%nat) ltac:(lia)) as hfe. rewrite cnt_add in hfe.
             pose proof Hbig.
             apply fmt_add_le; auto; lra.
          -- intros him. exfalso.
             assert (hle : mindist v o meds <= v o i) by (apply mindist_le; auto). lra.
    - rewrite hl. intros s (h1 & h2 & h3). split; [|split; auto].
      eapply (app_mono HD Hmx Hn); [| |exact h1]; [lia|].
      unfold tdev, g. rewrite <- sumQ_minus.
      rewrite <- (sumQ_single (- mindist v i meds) hi), <- sumQ_plus. apply sumQ_ext.
      intros o ho. apply in_seq in ho. destruct (Nat.eqb_spec o i) as [->|]; [|lra].
      rewrite (mindist_self (meds ++ [i]) Hv hi hin'); [lra|]. apply in_or_app. simpl. auto.
  Qed.

  Record build_near (l : nat) (st : bst Nt Lt) : Prop := {
    bn_len : length (b_meds st) = l;
    bn_inr : inr n (b_meds st);
    bn_nodup : NoDup (b_meds st);
    bn_dlen : length (b_data st) = n;
    bn_data : forall o r, nth_error (b_data st) o = Some r -> ia_rec (Lt := Lt) M (b_meds st) o r;
    bn_loss : app (2 * n) (tdev v n (b_meds st)) (b_loss st);
    bn_greedy : greedy_to v n (2 * err) (b_meds st)
  }.

  Lemma ia_rec_D meds o r : meds <> [] -> inr n meds -> (o < n)%nat -> ia_rec (Lt := Lt) M meds o r ->
    exists m, (m < n)%nat /\ dd (near r) = D o m /\ v o m == mindist v o meds.
  Proof.
    intros hne hin ho hr. destruct (ia_rec_near HD hne hin ho hr) as (_ & e & _).
    destruct (le_lt_dec 2 (length meds)) as [hk|hk].
    - pose proof (ia_obj_ok (Lt := Lt) HM hin ho hk) as h. unfold ia_rec in hr. rewrite hr in h.
      cbn [oks fst snd] in h. destruct h as [_ h]. destruct (rec2_x HD h) as (a & s & h1 & _ & _ & _ & _ & h6 & _).
      exists (nth a meds 0%nat). split; [apply inr_nth; auto|]. split; [auto|]. rewrite h6 in e. exact e.
    - destruct meds as [|b [|c meds]]; [congruence| |simpl in hk; lia].
      assert (hb : (b < n)%nat) by (apply hin; simpl; auto).
      pose proof (ia_rec_one (Lt := Lt) HD hb ho) as h2. unfold ia_rec in *. rewrite hr in h2.
      injection h2 as -> _. exists b. cbn [near dd] in *. split; [auto|]. split; [auto|]. exact e.
  Qed.

  Lemma build_dn_near l st : (1 <= l)%nat -> build_near l st ->
    dn_near (b_meds st) (map (fun r => dd (near r)) (b_data st)).
  Proof.
    intros hl [h1 h2 h3 h4 h5 h6 h7]. apply dn_entry; [rewrite map_length; auto|].
    intros o d h. rewrite nth_error_map in h. destruct (nth_error (b_data st) o) as [r|] eqn:e; [|discriminate].
    injection h as <-.
    assert (ho : (o < n)%nat) by (rewrite <- h4; eapply nth_error_lt; eauto).
    apply ia_rec_D; auto. destruct (b_meds st); simpl in *; [lia|congruence].
  Qed.

  (** the loss accumulated by BUILD; the new medoid itself is left out *)
  Lemma build_loss_near meds bj (rs : list (Rec Nt * option Lt)) : (length rs = n)%nat -> inr n meds -> In bj meds -> (bj < n)%nat ->
    (forall o p, nth_error rs o = Some p -> ia_rec (Lt := Lt) M meds o (fst p) /\
       snd p = if (o =? bj)%nat then None else Some (lfrom (dd (near (fst p))))) ->
    app n (tdev v n meds) (fold_left (fun s x => match snd x with Some v => ladd s v | None => s end) rs lzero).
  Proof.
    intros hl hin hbm hbj hr. assert (hne : meds <> []) by (intros ->; destruct hbm).
    pose proof (nmx_pos HD Hmx Hn) as hnm.
    pose (g := fun o => mindist v o meds).
    assert (G : forall post pre s, rs = pre ++ post -> app (length pre) (sumQ g (seq 0 (length pre))) s ->
      app n (tdev v n meds) (fold_left (fun s x => match snd x with Some v => ladd s v | None => s end) post s)).
    { induction post as [|p post IH]; intros pre s e hs.
      - rewrite app_nil_r in e. subst pre. cbn [fold_left]. rewrite hl in hs. exact hs.
      - cbn [fold_left].
        assert (hp : nth_error rs (length pre) = Some p) by (rewrite e, nth_error_app2, Nat.sub_diag by lia; auto).
        assert (ho : (length pre < n)%nat) by (rewrite <- hl; apply nth_error_lt with (1 := hp)).
        destruct (hr _ _ hp) as [q1 q2]. destruct (ia_rec_D hne hin ho q1) as (m & hm & em & vm).
        pose proof (sumQ_seq_S g (length pre)) as E.
        apply IH with (pre := pre ++ [p]); [rewrite <- app_assoc; auto|].
        rewrite app_length. cbn [length]. rewrite Nat.add_1_r, q2.
        destruct (Nat.eqb_spec (length pre) bj) as [eb|nb].
        + eapply (app_mono HD Hmx Hn); [| |exact hs]; [lia|]. rewrite E. unfold g at 3. rewrite eb.
          rewrite (mindist_self meds Hv hbj hin hbm). lra.
        + rewrite em.
          assert (hb : - (cnt n * mx) <= sumQ g (seq 0 (S (length pre))) /\ sumQ g (seq 0 (S (length pre))) <= cnt n * mx).
          { apply (sum_short_bound HD Hmx Hn); [rewrite seq_length; lia|].
            intros o ho'. apply in_seq in ho'. pose proof (mx_pos HD Hmx Hn).
            destruct (@mindist_bounds o meds) as [b1 b2]; auto; [lia|]. unfold g. lra. }
          rewrite E in hb. unfold g at 2 4 in hb.
          eapply (app_mono HD Hmx Hn); [| |apply (app_add HD Hmx Hbig Hn Hn32) with (t1 := length pre) (t2 := 0%nat)
            (q1 := sumQ g (seq 0 (length pre))) (q2 := v (length pre) m); [lia|lra|lra|exact hs|apply (app_D HE mx); auto]].
          * lia.
          * rewrite E. unfold g at 3. rewrite vm. reflexivity. }
    apply (G rs [] lzero eq_refl). apply (app_zero HD Hmx Hn).
  Qed.

  Lemma close_2n q x : app (2 * n) q x -> lfin x /\ lclose err q x.
  Proof. apply (app_close HD Hmx Hn). lia. Qed.

  Lemma build_step_near k l st : (1 <= l)%nat -> build_near l st ->
    oks (build_step M k st l) (fun c => match c with
      | Next s => build_near (S l) s
      | Break s => s = st /\ tdev v n (b_meds st) == 0 end).
  Proof.
    intros hl hg. pose proof hg as [h1 h2 h3 h4 h5 h6 h7].
    assert (hne : b_meds st <> []) by (destruct (b_meds st); simpl in *; [lia|congruence]).
    unfold build_step. rewrite map_fst_enum, h4.
    assert (hb : oks (build_next (Lt := Lt) M k (map (fun r => dd (near r)) (b_data st)) (seq 0 n)) (fun b =>
      (snd b < n)%nat /\ change_near (b_meds st) (snd b) (fst b) /\
      forall y, (y < n)%nat -> exists s, change_near (b_meds st) y s /\ lval (fst b) <= lval s)).
    { unfold build_next. apply pick_near; auto.
      - intros i hi. apply build_next_sum_near; auto. apply build_dn_near with l; auto.
      - intros i s hi [[hf _] _]. exact hf. }
    apply oks_inv in hb as ([x bj] & -> & hbj & (hx1 & hx2 & hx3) & hmin). cbn [bind fst snd] in *.
    destruct (lleb lzero x) eqn:ex.
    - cbn [oks]. split; auto. apply fmt_lleb in ex; [|exact fmt_zero|apply hx1]. rewrite fmt_zero_val in ex.
      unfold tdev. rewrite (sumQ_ext _ (fun _ => 0) _); [apply sumQ_zero|].
      intros o ho. apply in_seq in ho. destruct (hmin o) as (s & (_ & s2 & _) & s4); [lia|].
      destruct (@mindist_bounds o (b_meds st)) as [b1 b2]; auto; [lia|]. lra.
    - apply fmt_lleb_false in ex; [|exact fmt_zero|apply hx1]. rewrite fmt_zero_val in ex.
      assert (hnew : ~ In bj (b_meds st)) by (intros hin; specialize (hx3 hin); lra).
      pose proof (proj2 (emb_vals HD)) as hdg.
      eapply oks_bind.
      + apply mapM_enum with (R := fun o r (p : Rec Nt * option Lt) =>
          ia_rec (Lt := Lt) M (b_meds st ++ [bj]) o (fst p) /\
          snd p = if (o =? bj)%nat then None else Some (lfrom (dd (near (fst p))))).
        intros o r hr. assert (ho : (o < n)%nat) by (rewrite <- h4; eapply nth_error_lt; eauto).
        pose proof (build_upd_obj_eq (Lt := Lt) HM l r ho hbj) as he.
        apply oks_inv in he as (r' & es & he).
        eapply oks_mono; [exact he|]. intros p (e1 & e2 & e3 & e4 & e5 & e6).
        rewrite (e1 hdg). split; [|rewrite e6, (e1 hdg); auto].
        apply ia_rec_snoc with (r := r); auto. rewrite h1. auto.
      + intros rs [hrl hr]. cbn [oks].
        assert (hr' : forall o p, nth_error rs o = Some p -> ia_rec (Lt := Lt) M (b_meds st ++ [bj]) o (fst p) /\
          snd p = if (o =? bj)%nat then None else Some (lfrom (dd (near (fst p))))).
        { intros o p hp. destruct (nth_error_ex (b_data st) (i := o)) as [r0 hr0].
          { rewrite <- hrl. eapply nth_error_lt; eauto. }
          eapply hr; eauto. }
        assert (hin' : inr n (b_meds st ++ [bj])) by (apply inr_app; auto).
        constructor; cbn [b_meds b_data b_loss].
        * rewrite app_length. simpl. lia.
        * auto.
        * apply NoDup_snoc; auto.
        * rewrite map_length. lia.
        * intros o r h. rewrite nth_error_map in h. destruct (nth_error rs o) as [p|] eqn:e; [|discriminate].
          injection h as <-. apply hr' in e. apply e.
        * eapply (app_mono HD Hmx Hn); [| |apply build_loss_near with (bj := bj); eauto]; [lia|reflexivity|lia|].
          apply in_or_app. simpl. auto.
        * apply greedy_to_snoc; auto. intros y hy. destruct (hmin y hy) as (s & (s1 & _) & s4).
          apply close_2n in s1 as [_ [s1 s1']]. apply close_2n in hx1 as [_ [x1 x1']]. lra.
  Qed.

  Lemma build_first_near k : oks (build_first (Lt := Lt) M k) (fun b => (snd b < n)%nat /\ app n (tdev v n [snd b]) (fst b) /\
    forall y, (y < n)%nat -> exists s, app n (tdev v n [y]) s /\ lval (fst b) <= lval s).
  Proof.
    unfold build_first. rewrite (len_n HM). apply pick_near with (R := fun i => app n (tdev v n [i])); auto.
    - intros i hi. apply build_first_sum_near; auto.
    - intros i s hi [h _]. exact h.
  Qed.

  Lemma pam_build_near k : (1 <= k)%nat ->
    oks (pam_build_initialize (Lt := Lt) M k) (fun st => exists l, (1 <= l <= k)%nat /\ build_near l st /\
      (l = k \/ tdev v n (b_meds st) == 0)).
  Proof.
    intros hk. unfold pam_build_initialize. pose proof HM as (e1 & -> & e3). cbn [bind assertb].
    pose proof (build_first_near k) as hf.
    apply oks_inv in hf as ([x b] & -> & hb & hx & hmin). cbn [bind fst snd] in *. rewrite e1.
    eapply oks_bind with (P := fun data => length data = n /\
      forall o r, nth_error data o = Some r -> ia_rec (Lt := Lt) M [b] o r).
    - apply mapM_seq with (R := fun o r => ia_rec (Lt := Lt) M [b] o r). intros o ho.
      rewrite e3 by auto. cbn [bind oks]. apply (ia_rec_one HD); auto.
    - intros data [hl hd].
      apply forM_oks with (I := fun pre st => build_near (S (length pre)) st).
      + constructor; cbn [b_meds b_data b_loss length]; auto.
        * intros m [<-|[]]. auto.
        * constructor; auto. constructor.
        * eapply (app_mono HD Hmx Hn); [| |exact hx]; [lia|reflexivity].
        * intros i y hi hy. simpl in hi. assert (i = 0%nat) as -> by lia. cbn [firstn List.app].
          destruct (hmin y hy) as (s & s1 & s2).
          assert (hc : forall z q, app n z q -> lfin q /\ lclose err z q) by (intros; apply (app_close HD Hmx Hn) with (t := n); auto; lia).
          apply hc in s1 as [_ [s1 s1']]. apply hc in hx as [_ [x1 x1']]. lra.
      + intros pre l post st e hi.
        assert (el : l = S (length pre)).
        { pose proof (f_equal (fun z => nth (length pre) z 0%nat) e) as e'. cbv beta in e'.
          rewrite app_nth2, Nat.sub_diag in e' by lia. simpl in e'. rewrite <- e'.
          rewrite seq_nth; [auto|].
          apply (f_equal (@length nat)) in e. rewrite seq_length, app_length in e. simpl in e. lia. }
        assert (hlk : (l < k)%nat).
        { assert (hin : In l (seq 1 (k - 1))) by (rewrite e; apply in_or_app; simpl; auto).
          apply in_seq in hin. lia. }
        rewrite <- el in hi. eapply oks_mono; [apply build_step_near; eauto; lia|].
        intros [s|s].
        * intros hs. rewrite app_length. cbn [length]. replace (length pre + 1)%nat with l by lia. auto.
        * intros (-> & hz). exists l. split; [lia|]. auto.
      + intros st hi. rewrite seq_length in hi. exists (S (k - 1)). split; [lia|]. split; [auto|]. left. lia.
  Qed.

  Lemma build_assi_near l st : (1 <= l)%nat -> build_near l st ->
    length (assignment_of (b_data st)) = n /\
    (forall o, (o < n)%nat -> nearest v o (b_meds st) (nth o (assignment_of (b_data st)) 0%nat)).
  Proof.
    intros hl [h1 h2 h3 h4 h5 h6 h7]. split; [unfold assignment_of; rewrite map_length; auto|].
    intros o ho. destruct (nth_error_ex (b_data st) (i := o)) as [r hr]; [lia|].
    assert (e : nth o (assignment_of (b_data st)) 0%nat = as_usize (di (near r))).
    { apply nth_error_nth. unfold assignment_of. rewrite nth_error_map, hr. auto. }
    rewrite e. apply (ia_rec_near (Lt := Lt) HD (meds := b_meds st) (o := o) (r := r)); auto.
    destruct (b_meds st); simpl in *; [lia|congruence].
  Qed.

  Lemma build_pf l st : (2 <= l)%nat -> build_near l st ->
    pf_inv n D l (mkP (b_meds st) (b_data st) [] (b_loss st) 0 0).
  Proof.
    intros hl [h1 h2 h3 h4 h5 h6 h7]. pose proof (emb_vals HD) as [he hg].
    assert (hk : (2 <= length (b_meds st))%nat) by lia.
    constructor; cbn [p_med p_data]; [constructor; cbn [p_med p_data]; [auto|auto|split; [auto|]]|auto|].
    - intros o r hr. assert (ho : (o < n)%nat) by (rewrite <- h4; eapply nth_error_lt; eauto).
      pose proof (ia_obj_ok (Lt := Lt) HM h2 ho hk) as h. rewrite (h5 o r hr) in h. apply h.
    - intros o r hr. assert (ho : (o < n)%nat) by (rewrite <- h4; eapply nth_error_lt; eauto).
      pose proof (ia_obj_own (Lt := Lt) HM hg he h3 h2 ho hk) as h. rewrite (h5 o r hr) in h. apply h.
  Qed.

  (** ** choose_medoid_within_partition *)
  Lemma member_sum_near assi m c : (length assi = n)%nat -> (c < n)%nat ->
    oks (member_sum M assi m c) (app n (cluster_cost v n assi m c)).
  Proof.
    intros hl hc. unfold member_sum, cluster_cost. pose proof (nmx_pos HD Hmx Hn) as hnm.
    pose (g := fun i => if (nth i assi 0 =? m)%nat then v c i else 0).
    assert (h : oks (foldM (fun s '(i, a) => if negb (c =? i)%nat && (a =? m)%nat then d <- mget M c i ;; Ok (ladd s (lfrom d)) else Ok s)
      (enum assi) lzero) (fun s => app (length assi) (sumQ g (seq 0 (length assi))) s)); [|rewrite hl in h; exact h].
    apply foldM_enum with (I := fun t (s : Lt) => app t (sumQ g (seq 0 t)) s); [apply (app_zero HD Hmx Hn)|].
    intros i a s hi hs. pose proof (nth_error_lt _ _ hi) as hlt. pose proof (nth_error_nth _ _ 0%nat hi) as hni.
    pose proof (sumQ_seq_S g i) as E.
    assert (hin : (i < n)%nat) by lia.
    assert (stay : g i == 0 -> app (S i) (sumQ g (seq 0 (S i))) s).
    { intros hz. eapply (app_mono HD Hmx Hn); [| |exact hs]; [lia|]. rewrite E, hz. lra. }
    destruct (Nat.eqb_spec c i) as [->|hne]; cbn [negb andb].
    - apply stay. unfold g. pose proof (proj1 Hv i hin). destruct (_ =? _)%nat; [auto|reflexivity].
    - destruct (a =? m)%nat eqn:ea.
      + rewrite (get_ok HM) by auto. cbn [bind oks].
        assert (hg : g i = v c i) by (unfold g; rewrite hni, ea; reflexivity).
        assert (hb : - (cnt n * mx) <= sumQ g (seq 0 (S i)) /\ sumQ g (seq 0 (S i)) <= cnt n * mx).
        { apply (sum_short_bound HD Hmx Hn); [rewrite seq_length; lia|].
          intros x hx. apply in_seq in hx. pose proof (mx_pos HD Hmx Hn) as b0. assert (hxn : (x < n)%nat) by lia.
          pose proof (v_pos HD hc hxn) as b1. pose proof (Hmx hc hxn) as b2. unfold g. clear - b0 b1 b2. destruct (_ =? _)%nat; lra. }
        rewrite E, hg in hb.
        eapply (app_mono HD Hmx Hn); [| |apply (app_add HD Hmx Hbig Hn Hn32) with (t1 := i) (t2 := 0%nat)
          (q1 := sumQ g (seq 0 i)) (q2 := v c i); [lia|lra|lra|exact hs|apply (app_D HE mx); auto]].
        * lia.
        * rewrite E, hg. reflexivity.
      + apply stay. unfold g. rewrite hni, ea. reflexivity.
  Qed.

  Lemma close_n q x : app n q x -> lfin x /\ lclose err q x.
  Proof. apply (app_close HD Hmx Hn). lia. Qed.

  Lemma choose_near assi med m : (length assi = n)%nat -> (m < length med)%nat -> inr n med ->
    oks (choose_medoid_within_partition M assi med m) (fun '(med', ch, loss) =>
      exists best, (best < n)%nat /\ med' = set_nth med m best /\ ch = negb (best =? nth m med 0)%nat /\
        lclose err (cluster_cost v n assi m best) loss /\
        (best = nth m med 0%nat \/ nth best assi 0%nat = m) /\
        cluster_cost v n assi m best <= cluster_cost v n assi m (nth m med 0%nat) + 2 * err /\
        (forall j, (j < n)%nat -> nth j assi 0%nat = m ->
           cluster_cost v n assi m best <= cluster_cost v n assi m j + 2 * err)).
  Proof.
    intros hl hm hin. unfold choose_medoid_within_partition.
    rewrite idx_nth with (d := 0%nat) by auto. cbn [bind].
    assert (hf : (nth m med 0 < n)%nat) by (apply inr_nth; auto).
    set (cost := cluster_cost v n assi m).
    eapply oks_bind; [apply member_sum_near; auto|]. intros s0 hs0. fold (cost (nth m med 0%nat)) in hs0.
    eapply oks_bind.
    - apply foldM_enum with (I := fun t (bs : nat * Lt) => (fst bs < n)%nat /\ app n (cost (fst bs)) (snd bs) /\
        lval (snd bs) <= lval s0 /\ (fst bs = nth m med 0%nat \/ nth (fst bs) assi 0%nat = m) /\
        (forall j, (j < t)%nat -> nth j assi 0%nat = m -> exists s, app n (cost j) s /\ lval (snd bs) <= lval s)).
      + cbn [fst snd]. split; [auto|]. split; [auto|]. split; [lra|]. split; [auto|]. intros; lia.
      + intros j aj bs hj (h1 & h2 & h3 & h4 & h5).
        pose proof (nth_error_lt _ _ hj) as hlt. pose proof (nth_error_nth _ _ 0%nat hj) as hnj.
        destruct (negb (j =? nth m med 0)%nat && (aj =? m)%nat) eqn:e.
        * apply andb_true_iff in e as [_ e]. apply Nat.eqb_eq in e.
          eapply oks_bind; [apply member_sum_near; auto; lia|]. intros sj hsj. fold (cost j) in hsj.
          destruct (lltb sj (snd bs)) eqn:el; cbn [oks fst snd].
          -- apply fmt_lltb in el; [|apply hsj|apply h2].
             split; [lia|]. split; [auto|]. split; [lra|]. split; [right; congruence|].
             intros j' hj' ej'. destruct (Nat.eq_dec j' j) as [->|]; [exists sj; split; [auto|lra]|].
             destruct (h5 j') as (s & q1 & q2); [lia|auto|]. exists s. split; [auto|lra].
          -- apply fmt_lltb_false in el; [|apply hsj|apply h2].
             split; [auto|]. split; [auto|]. split; [auto|]. split; [auto|].
             intros j' hj' ej'. destruct (Nat.eq_dec j' j) as [->|]; [exists sj; split; [auto|lra]|].
             apply h5; auto. lia.
        * cbn [oks]. split; [auto|]. split; [auto|]. split; [auto|]. split; [auto|].
          intros j' hj' ej'. destruct (Nat.eq_dec j' j) as [->|]; [|apply h5; auto; lia].
          apply andb_false_iff in e as [e|e].
          -- apply negb_false_iff, Nat.eqb_eq in e. subst j. exists s0. auto.
          -- apply Nat.eqb_neq in e. congruence.
    - intros [best sb] (h1 & h2 & h3 & h4 & h5). cbn [fst snd] in *.
      rewrite upd_ok by auto. cbn [bind oks]. exists best.
      apply close_n in h2 as [_ h2]. apply close_n in hs0 as [_ [z1 z2]]. destruct h2 as [c1 c2].
      split; [auto|]. split; [auto|]. split; [auto|]. split; [split; auto|]. split; [auto|].
      split; [fold cost; lra|].
      intros j hj ej. destruct (h5 j) as (s & q1 & q2); [lia|auto|]. apply close_n in q1 as [_ [q1 q1']]. fold cost. lra.
  Qed.

  (** k = 1 *)
  Lemma single_medoid_near med : length med = 1%nat -> inr n med ->
    oks (single_medoid (Lt := Lt) M med) (fun r =>
      r_assi r = repeat 0%nat n /\ r_iter r = 1%nat /\ exists best, (best < n)%nat /\ r_med r = [best] /\
        lclose err (row_sum n D best) (r_loss r) /\
        (forall j, (j < n)%nat -> row_sum n D best <= row_sum n D j + 2 * err)).
  Proof.
    intros hl hin. unfold single_medoid. rewrite (len_n HM).
    pose proof (choose_near (repeat 0%nat n) (med := med) (m := 0) (repeat_length 0%nat n) ltac:(lia) hin) as h.
    apply oks_inv in h as ([[med' ch] loss] & -> & best & hb & -> & -> & h1 & _ & _ & h3).
    cbn [bind oks r_assi r_iter r_med r_swaps r_loss]. split; [auto|]. split; [auto|].
    exists best. split; [auto|].
    assert (e0 : forall i, nth i (repeat 0%nat n) 0%nat = 0%nat).
    { generalize n. clear. intros k. induction k; destruct i; simpl; auto. }
    destruct med as [|x [|y l]]; simpl in hl; try lia. cbn [set_nth]. split; [auto|]. split.
    - eapply lclose_ext; [reflexivity| |exact h1]. apply cluster_cost_all.
    - intros j hj. specialize (h3 j hj (e0 j)). rewrite !cluster_cost_all in h3. auto.
  Qed.

  (** ** alternating *)
  Definition centered (e : Q) (assi med : list nat) (c : nat) : Prop :=
    forall j, (j < n)%nat -> nth j assi 0%nat = c ->
      cluster_cost v n assi c (nth c med 0%nat) <= cluster_cost v n assi c j + e.

  Lemma alt_medoids_near assi med : (length assi = n)%nat -> inr n med ->
    (forall c, (c < length med)%nat -> nth (nth c med 0%nat) assi 0%nat = c) ->
    oks (alt_medoids (Lt := Lt) M assi med) (fun p =>
      length (fst p) = length med /\ inr n (fst p) /\
      (forall c, (c < length med)%nat -> nth (nth c (fst p) 0%nat) assi 0%nat = c) /\
      (forall c, (c < length med)%nat -> centered (2 * err) assi (fst p) c) /\
      (snd p = false -> fst p = med) /\
      part_cost n D assi (fst p) <= part_cost n D assi med + cnt (length med) * (2 * err)).
  Proof.
    intros hl hin hown. unfold alt_medoids. pose proof (err_pos HD Hmx Hn) as hep.
    eapply oks_mono.
    - apply foldM_seq with (I := fun t (p : list nat * bool) =>
        length (fst p) = length med /\ inr n (fst p) /\
        (forall c, (c < length med)%nat -> nth (nth c (fst p) 0%nat) assi 0%nat = c) /\
        (forall c, (c < t)%nat -> centered (2 * err) assi (fst p) c) /\
        (forall c, (t <= c)%nat -> nth c (fst p) 0%nat = nth c med 0%nat) /\
        (forall c, (c < length med)%nat -> cluster_cost v n assi c (nth c (fst p) 0%nat) <=
                                     cluster_cost v n assi c (nth c med 0%nat) + 2 * err) /\
        (snd p = false -> fst p = med)).
      + cbn [fst snd]. split; [auto|]. split; [auto|]. split; [auto|]. split; [intros; lia|].
        split; [auto|]. split; [intros; lra|auto].
      + intros i [md ch] hi (h1 & h2 & h3 & h4 & h5 & h6 & h7). cbn [fst snd] in *.
        assert (hi' : (i < length md)%nat) by lia.
        pose proof (choose_near assi hl hi' h2) as hc.
        apply oks_inv in hc as ([[md' c] s] & -> & b & hb & -> & -> & _ & hcase & hle & hmin).
        cbn [bind oks fst snd].
        assert (hnb : nth i (set_nth md i b) 0%nat = b) by (apply nth_set_nth_eq; lia).
        split; [rewrite length_set_nth; auto|]. split; [apply inr_set_nth; auto|].
        split; [|split; [|split; [|split]]].
        * intros c hc. destruct (Nat.eq_dec c i) as [->|].
          -- rewrite hnb. destruct hcase as [->|hcase]; auto.
          -- rewrite set_nth_other by auto. auto.
        * intros c hc. destruct (Nat.eq_dec c i) as [->|].
          -- intros j hj ej. rewrite hnb. auto.
          -- intros j hj ej. rewrite set_nth_other by auto. apply h4; auto. lia.
        * intros c hc. rewrite set_nth_other by lia. apply h5. lia.
        * intros c hc. destruct (Nat.eq_dec c i) as [->|].
          -- rewrite hnb. rewrite (h5 i) in hle by lia. auto.
          -- rewrite set_nth_other by auto. auto.
        * intros e. apply orb_false_iff in e as [e1 e2]. apply negb_false_iff, Nat.eqb_eq in e2.
          rewrite e2, set_nth_same. auto.
    - intros [md ch] (h1 & h2 & h3 & h4 & h5 & h6 & h7). cbn [fst snd] in *.
      split; [auto|]. split; [auto|]. split; [auto|]. split; [auto|]. split; [auto|].
      unfold part_cost. rewrite h1.
      assert (G : forall l, (forall c, In c l -> (c < length med)%nat) ->
        sumQ (fun c => cluster_cost v n assi c (nth c md 0%nat)) l <=
        sumQ (fun c => cluster_cost v n assi c (nth c med 0%nat)) l + cnt (length l) * (2 * err)).
      { induction l as [|c l IH]; intros hc.
        - change (cnt (length (@nil nat))) with 0. cbn [sumQ fold_right]. lra.
        - change (sumQ (fun c => cluster_cost v n assi c (nth c md 0%nat)) (c :: l)) with
            (cluster_cost v n assi c (nth c md 0%nat) + sumQ (fun c => cluster_cost v n assi c (nth c md 0%nat)) l).
          change (sumQ (fun c => cluster_cost v n assi c (nth c med 0%nat)) (c :: l)) with
            (cluster_cost v n assi c (nth c med 0%nat) + sumQ (fun c => cluster_cost v n assi c (nth c med 0%nat)) l).
          cbn [length]. rewrite cnt_S. pose proof (h6 c (hc c (or_introl eq_refl))).
          assert (hl' := IH (fun x hx => hc x (or_intror hx))). lra. }
      specialize (G (seq 0 (length med))). rewrite seq_length in G. apply G.
      intros c hc. apply in_seq in hc. lia.
  Qed.

  (** the objects are in the clusters of nearest medoids, the medoids in their own ones *)
  Record assigned (k : nat) (st : ast Lt) : Prop := {
    ad_med : medoids n k (al_med st);
    ad_len : length (al_assi st) = n;
    ad_near : forall o, (o < n)%nat -> nearest v o (al_med st) (nth o (al_assi st) 0%nat);
    ad_own : forall c, (c < k)%nat -> nth (nth c (al_med st) 0%nat) (al_assi st) 0%nat = c
  }.

  Lemma assign_nearest_assigned med : sizes n (length med) -> medoids n (length med) med ->
    oks (assign_nearest (Lt := Lt) M med) (fun p => forall i, assigned (length med) (mkA med (snd p) (fst p) i)).
  Proof.
    intros hs (_ & hnd & hin). pose proof (proj1 (emb_vals HD)) as he.
    eapply oks_mono; [apply (assign_nearest_ok HM hs hin)|].
    intros [loss assi] (h1 & h2 & _) i. cbn [fst snd] in *.
    constructor; cbn [al_med al_assi]; [split; auto|auto| |].
    - intros o ho. apply (h2 o ho); auto.
    - intros c hc. assert (hcn : (nth c med 0 < n)%nat) by (apply inr_nth; auto).
      destruct (h2 _ hcn) as (_ & _ & h & _). eapply h; eauto.
  Qed.

  Lemma assigned_cost k st : symmetric n v -> assigned k st -> part_cost n D (al_assi st) (al_med st) == tdev v n (al_med st).
  Proof.
    intros hs [(m1 & m2 & m3) h1 h2 h3]. rewrite part_cost_sum by (intros o ho; apply (h2 o ho)).
    apply sumQ_ext. intros o ho. apply in_seq in ho. assert (hon : (o < n)%nat) by lia.
    rewrite (nearest_mindist (h2 o hon)). apply hs; [|lia].
    apply inr_nth; auto. apply h2. lia.
  Qed.

  Lemma alt_iteration_near k st : sizes n k -> assigned k st ->
    oks (alt_iteration M st) (fun c => match c with
      | Break s => s = mkA (al_med st) (al_assi st) (al_loss st) (S (al_iter st)) /\
          forall c, (c < k)%nat -> centered (2 * err) (al_assi s) (al_med s) c
      | Next s => assigned k s /\ al_iter s = S (al_iter st) /\
          (symmetric n v -> tdev v n (al_med s) <= tdev v n (al_med st) + cnt k * (2 * err))
      end).
  Proof.
    intros hs hst. pose proof hst as [(m1 & m2 & m3) c1 c2 c3]. unfold alt_iteration.
    rewrite <- m1 in c3.
    pose proof (alt_medoids_near (al_assi st) c1 m3 c3) as h.
    apply oks_inv in h as ([med' ch] & e & q1 & q2 & q3 & q4 & q5 & q6). cbn [fst snd] in *.
    rewrite e. cbn [bind].
    destruct ch; cbn [negb].
    - assert (hm' : medoids n (length med') med').
      { split; [auto|]. split; [|auto]. apply own_nodup with (assi := al_assi st). rewrite q1. auto. }
      assert (hs2 : sizes n (length med')) by (rewrite q1, m1; auto).
      pose proof (assign_nearest_assigned hs2 hm') as h.
      apply oks_inv in h as ([loss' assi'] & e' & hcl'). rewrite e'. cbn [bind oks al_med al_iter fst snd] in *.
      rewrite q1, m1 in hcl'. split; [apply hcl'|]. split; [auto|]. intros hsym.
      rewrite (assigned_cost hsym hst) in q6. rewrite m1 in q6.
      assert (ha : forall o, (o < n)%nat -> (nth o (al_assi st) 0 < length med')%nat) by (intros o ho; rewrite q1; apply (c2 o ho)).
      pose proof (part_cost_ge (al_assi st) hsym q2 ha) as hge. lra.
    - specialize (q5 eq_refl). subst med'. cbn [oks al_assi al_med]. split; [auto|].
      intros c hc. apply q4. lia.
  Qed.

  Lemma alternating_near med maxiter : sizes n (length med) -> medoids n (length med) med ->
    oks (alternating (Lt := Lt) M med maxiter) (fun r =>
      medoids n (length med) (r_med r) /\ length (r_assi r) = n /\
      (forall o, (o < n)%nat -> nearest v o (r_med r) (nth o (r_assi r) 0%nat)) /\
      (r_iter r <= maxiter)%nat /\
      (symmetric n v -> tdev v n (r_med r) <= tdev v n med + cnt (r_iter r) * (cnt (length med) * (2 * err))) /\
      ((r_iter r < maxiter)%nat -> forall c, (c < length med)%nat -> centered (2 * err) (r_assi r) (r_med r) c)).
  Proof.
    intros hs hm. unfold alternating. pose proof (err_pos HD Hmx Hn) as hep.
    pose proof (assign_nearest_assigned hs hm) as h.
    apply oks_inv in h as ([loss assi] & e & hcl). rewrite e. cbn [bind fst snd] in *.
    set (k := length med) in *. set (st0 := cnt k * (2 * err)).
    assert (hst : 0 <= st0).
    { unfold st0. apply Qmult_le_0_compat; [|lra]. change 0 with (cnt 0). apply cnt_le. lia. }
    eapply oks_bind.
    - apply whileM_oks with
        (I := fun i (st : ast Lt) => assigned k st /\ al_iter st = i /\
           (symmetric n v -> tdev v n (al_med st) <= tdev v n med + cnt i * st0))
        (J := fun st => assigned k st /\ (al_iter st <= maxiter)%nat /\
           (symmetric n v -> tdev v n (al_med st) <= tdev v n med + cnt (al_iter st) * st0) /\
           ((al_iter st < maxiter)%nat -> forall c, (c < k)%nat -> centered (2 * err) (al_assi st) (al_med st) c)).
      + cbn. split; [apply hcl|]. split; [auto|]. intros _. change (cnt 0) with 0. lra.
      + intros i st hi (h1 & h2 & h3).
        eapply oks_mono; [apply (alt_iteration_near hs h1)|].
        intros [s|s].
        * intros (q1 & q2 & q3). split; [auto|]. split; [lia|]. intros hsym.
          specialize (h3 hsym). specialize (q3 hsym). fold st0 in q3. rewrite cnt_S. lra.
        * intros (-> & q2). cbn [al_med al_iter al_assi] in *. split; [destruct h1; constructor; auto|].
          split; [lia|]. split; [|auto]. intros hsym. specialize (h3 hsym). rewrite h2, cnt_S. lra.
      + intros st (h1 & h2 & h3). split; [auto|]. split; [lia|]. rewrite h2. split; [auto|]. lia.
    - intros st ([h1 h1' h1'' _] & h2 & h3 & h4). cbn [oks r_med r_assi r_iter]. auto 10.
  Qed.
End Build.
