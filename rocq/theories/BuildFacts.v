(** BuildFacts.v -- the BUILD initialization of pam.rs, also used by pamsil.rs and pammedsil.rs. *)
From Coq Require Import ZArith QArith Lqa Lia.
From Verif Require Import Base Num M_Mat M_Util M_Fasterpam M_Pam Hoare Spec SpecFacts Laws PamShape
  PamExact Reference LocalSearch FpFacts ChooseFacts PamFacts.
Set Implicit Arguments.
Open Scope nat_scope.

(** ** without arithmetic laws *)
Section Shape.
  Context {Nt Lt : Type} `{HNN : NumN Nt} `{HNL : NumL Lt} `{HFN : FromN Nt Lt}.
  Variable M : Mat Nt.
  Variable n : nat.
  Variable D : nat -> nat -> Nt.
  Hypothesis HM : is_matrix M n D.

  Lemma build_first_shape k : 1 <= n -> oks (build_first (Lt := Lt) M k) (fun b => snd b < n).
  Proof.
    intros hn. unfold build_first. rewrite (len_n HM).
    eapply oks_mono.
    - apply foldM_seq with (I := fun t (b : Lt * nat) => t = 0 \/ snd b < n); [auto|].
      intros i b hi hb. eapply oks_bind with (P := fun _ => True).
      + unfold build_first_sum. rewrite (len_n HM). apply foldM_inv; auto.
        intros j s hj _. apply in_seq in hj. destruct (negb (j =? i)); simpl; auto.
        rewrite (get_ok HM) by lia. simpl. auto.
      + intros s _. cbn [oks]. right. destruct hb as [->|hb]; [simpl; lia|].
        destruct ((i =? 0) || lltb s (fst b)); auto.
    - intros b [h|h]; [lia|auto].
  Qed.

  Lemma build_next_sum_shape (dn : list Nt) i : length dn = n -> i < n ->
    oks (build_next_sum (Lt := Lt) M dn i) (fun _ => True).
  Proof.
    intros hl hi. unfold build_next_sum.
    destruct (nth_error_ex dn (i := i)) as [d0 hd0]; [lia|]. rewrite (idx_some _ _ hd0).
    cbn [bind]. apply foldM_inv; auto. intros [j dj] s hj _. apply In_enum, nth_error_lt in hj.
    destruct (negb (j =? i)); simpl; auto. rewrite (get_ok HM) by lia. simpl. auto.
  Qed.

  Lemma build_next_shape k (dn : list Nt) : 1 <= n -> length dn = n ->
    oks (build_next (Lt := Lt) M k dn (seq 0 n)) (fun b => snd b < n).
  Proof.
    intros hn hl. unfold build_next. eapply oks_mono.
    - apply foldM_seq with (I := fun t (b : Lt * nat) => t = 0 \/ snd b < n); [auto|].
      intros i b hi hb. eapply oks_bind; [apply build_next_sum_shape; auto|].
      intros s _. cbn [oks]. right. destruct hb as [->|hb]; [simpl; lia|].
      destruct ((i =? 0) || lltb s (fst b)); auto.
    - intros b [h|h]; [lia|auto].
  Qed.

  Lemma rect_app t meds x o r : t <= length meds -> rect n D t meds o r -> rect n D t (meds ++ [x]) o r.
  Proof.
    intros ht hr.
    assert (hn : forall c, c < t -> nth c (meds ++ [x]) 0 = nth c meds 0)
      by (intros c hc; apply app_nth1; lia).
    destruct hr as [[-> [[h1 h2] h3]]|[h (a & b & ha & hb & hab & [hai had] & [hbi hbd] & hm)]].
    - left. split; auto. split; auto. split; auto. rewrite hn by lia. auto.
    - right. split; auto. exists a, b. split; [auto|]. split; [auto|]. split; [auto|].
      split; [split; [auto|rewrite hn by auto; auto]|].
      split; [split; [auto|rewrite hn by auto; auto]|].
      intros hg v he. destruct (hm hg v he) as [m1 m2]. split.
      + intros c hc. rewrite !hn by auto. auto.
      + intros c hc. match goal with |- _ <> _ -> _ => intros hc1 end. rewrite !hn by auto. auto.
  Qed.

  (** the update of BUILD is the update of initial_assignment *)
  Lemma build_upd_obj_eq l bj j r : j < n -> bj < n ->
    oks (ia_step M j r (l, bj)) (fun r' =>
      oks (build_upd_obj (Lt := Lt) M l bj (j, r)) (fun p =>
        (Dg n D -> fst p = r') /\ di (near (fst p)) = di (near r') /\ seco (fst p) = seco r' /\
        (j <> bj -> fst p = r') /\
        (j = bj -> near (fst p) = DP (Some l) nzero) /\
        snd p = if j =? bj then None else Some (lfrom (dd (near (fst p)))))).
  Proof.
    intros hj hb. simpl ia_step. rewrite (get_ok HM) by auto. cbn [bind oks]. simpl build_upd_obj.
    destruct (j =? bj) eqn:e.
    - apply Nat.eqb_eq in e. subst bj. rewrite orb_true_r. simpl.
      split; [|tauto]. intros hg. rewrite hg by auto. auto.
    - rewrite orb_false_r. rewrite (get_ok HM) by auto. cbn [bind oks fst snd].
      split; [auto|]. split; [auto|]. split; [auto|]. split; [auto|].
      apply Nat.eqb_neq in e. split; [tauto|]. auto.
  Qed.

  Lemma rec2_near_dd t meds o r r' :
    rec2 n D t meds o r -> di (near r') = di (near r) -> seco r' = seco r ->
    (Dg n D -> dd (near r') = dd (near r)) -> rec2 n D t meds o r'.
  Proof.
    intros (a & b & ha & hb & hab & [hai had] & [hbi hbd] & hm) e1 e2 e3. exists a, b.
    split; [auto|]. split; [auto|]. split; [auto|].
    split; [split; [congruence|intros hg; rewrite e3 by auto; auto]|].
    split; [split; rewrite e2; auto|]. auto.
  Qed.

  Record build_inv (l : nat) (st : bst Nt Lt) : Prop := {
    bi_len : length (b_meds st) = l;
    bi_inr : inr n (b_meds st);
    bi_dlen : length (b_data st) = n;
    bi_data : forall o r, nth_error (b_data st) o = Some r -> rect n D l (b_meds st) o r
  }.

  Lemma inr_app meds x : inr n meds -> x < n -> inr n (meds ++ [x]).
  Proof. intros h hx m hm. apply in_app_or in hm as [hm|[<-|[]]]; auto. Qed.

  Lemma build_step_shape k l st : 1 <= n -> 1 <= l -> build_inv l st ->
    oks (build_step M k st l) (fun c => match c with
      | Next s => build_inv (S l) s | Break s => s = st end).
  Proof.
    intros hn hl [h1 h2 h3 h4]. unfold build_step. rewrite map_fst_enum, h3.
    assert (hb : oks (build_next (Lt := Lt) M k (map (fun r => dd (near r)) (b_data st)) (seq 0 n))
                     (fun b => snd b < n)) by (apply build_next_shape; auto; rewrite map_length; auto).
    apply oks_inv in hb as ([x bj] & -> & hbj). cbn [bind fst snd] in *.
    destruct (lleb lzero x); [reflexivity|].
    eapply oks_bind.
    - apply mapM_enum with (R := fun o r (p : Rec Nt * option Lt) =>
        rect n D (S l) (b_meds st ++ [bj]) o (fst p)).
      intros o r hr. assert (ho : o < n) by (rewrite <- h3; eapply nth_error_lt; eauto).
      assert (ht : nth_error (b_meds st ++ [bj]) l = Some bj).
      { rewrite nth_error_app2 by lia. rewrite h1, Nat.sub_diag. auto. }
      assert (hrt : rect n D l (b_meds st ++ [bj]) o r) by (apply rect_app; auto; lia).
      pose proof (ia_step_ok HM (inr_app h2 hbj) ho hl ht hrt) as hs.
      pose proof (build_upd_obj_eq l r ho hbj) as he.
      apply oks_inv in hs as (r' & es & hs). rewrite es in he. cbn [oks] in he.
      eapply oks_mono; [exact he|]. intros p (e1 & e2 & e3 & _).
      right. split; [lia|]. apply rec2_near_dd with (r := r'); auto.
      intros hg. rewrite e1; auto.
    - intros rs [hrl hr]. cbn [oks]. constructor; cbn [b_meds b_data].
      + rewrite app_length. simpl. lia.
      + apply inr_app; auto.
      + rewrite map_length. lia.
      + intros o r h. rewrite nth_error_map in h. destruct (nth_error rs o) as [p|] eqn:e; [|discriminate].
        injection h as <-. destruct (nth_error_ex (b_data st) (i := o)) as [r0 hr0].
        { rewrite <- hrl. eapply nth_error_lt; eauto. }
        eapply hr; eauto.
  Qed.

  Lemma build_shape k : 1 <= n -> 1 <= k ->
    oks (pam_build_initialize (Lt := Lt) M k) (fun st => exists l, 1 <= l <= k /\ build_inv l st).
  Proof.
    intros hn hk. unfold pam_build_initialize.
    destruct HM as (e1 & -> & e3). cbn [bind assertb].
    pose proof (build_first_shape k hn) as hf.
    apply oks_inv in hf as ([x b] & -> & hb). cbn [bind fst snd] in *. rewrite e1.
    eapply oks_bind with (P := fun data => length data = n /\
      forall o r, nth_error data o = Some r -> rect n D 1 [b] o r).
    - apply mapM_seq with (R := fun o r => rect n D 1 [b] o r). intros o ho.
      rewrite e3 by auto. cbn [bind oks]. left. split; auto. split; auto. split; auto.
    - intros data [hl hd].
      apply forM_oks with (I := fun pre st => build_inv (S (length pre)) st).
      + constructor; cbn [b_meds b_data length]; auto. intros m [<-|[]]. auto.
      + intros pre l post st e hi.
        assert (el : l = S (length pre)).
        { pose proof (f_equal (fun z => nth (length pre) z 0) e) as e'. cbv beta in e'.
          rewrite app_nth2, Nat.sub_diag in e' by lia. simpl in e'. rewrite <- e'.
          rewrite seq_nth; [auto|].
          apply (f_equal (@length nat)) in e. rewrite seq_length, app_length in e. simpl in e. lia. }
        assert (hlk : l < k).
        { assert (hin : In l (seq 1 (k - 1))) by (rewrite e; apply in_or_app; simpl; auto).
          apply in_seq in hin. lia. }
        rewrite <- el in hi. eapply oks_mono; [apply build_step_shape; eauto; lia|].
        intros [s|s].
        * intros hs. rewrite app_length. simpl. replace (S (length pre + 1)) with (S l) by lia. auto.
        * intros ->. exists l. split; [lia|auto].
      + intros st hi. rewrite seq_length in hi. exists (S (k - 1)). split; [lia|auto].
  Qed.

  Lemma rect_near t meds o r : rect n D t meds o r -> as_usize (di (near r)) < t.
  Proof.
    intros [[-> [[h _] _]]|[_ (a & b & ha & _ & _ & [hai _] & _)]]; [rewrite h; simpl; lia|].
    rewrite hai. auto.
  Qed.

  Lemma pam_build_shape k : sizes n k ->
    oks (pam_build (Lt := Lt) M k) (fun '(_, assi, meds) =>
      1 <= length meds <= k /\ inr n meds /\ length assi = n /\
      forall a, In a assi -> a < length meds).
  Proof.
    intros hs. assert (hk : 1 <= n /\ 1 <= k) by (destruct hs; lia). destruct hk as [hn hk].
    unfold pam_build. rewrite (check_input_ok HM hs). cbn [bind].
    eapply oks_bind; [apply build_shape; auto|].
    intros st (l & hl & [h1 h2 h3 h4]). cbn [oks]. rewrite h1. split; [auto|]. split; [auto|].
    split; [unfold assignment_of; rewrite map_length; auto|].
    intros a ha. apply in_map_iff in ha as (r & <- & hr). apply In_nth_error in hr as [o hr].
    eapply rect_near; eauto.
  Qed.

  Lemma pam_shape (zero_irrefl : lltb (lzero : Lt) lzero = false) k maxiter : sizes n k ->
    oks (pam (Lt := Lt) M k maxiter) (fun r =>
      1 <= length (r_med r) <= k /\ inr n (r_med r) /\ length (r_assi r) = n /\
      (forall a, In a (r_assi r) -> a < length (r_med r)) /\
      r_iter r <= Nat.max 1 maxiter /\ r_swaps r <= r_iter r).
  Proof.
    intros hs. assert (hk : 1 <= n /\ 1 <= k) by (destruct hs; lia). destruct hk as [hn hk].
    unfold pam. rewrite (check_input_ok HM hs). cbn [bind].
    eapply oks_bind; [apply build_shape; auto|].
    intros st (l & hl & [h1 h2 h3 h4]).
    destruct (Nat.eq_dec l 1) as [->|hl2].
    - unfold pam_optimize. rewrite h1, Nat.eqb_refl.
      eapply oks_mono; [apply (single_medoid_shape HM); auto|].
      intros r (e1 & e2 & b & hb & e3 & e4). rewrite e1, e2, e3, e4. cbn [length].
      split; [lia|]. split; [intros m [<-|[]]; auto|]. split; [apply repeat_length|].
      split; [intros a ha; apply repeat_spec in ha; lia|]. split; [lia|]. destruct (b =? _); lia.
    - eapply oks_mono; [apply (pam_optimize_shape HM zero_irrefl); auto; [lia|]|].
      + split; auto. intros o r hr. destruct (h4 o r hr) as [[h _]|[_ h]]; [lia|]. rewrite h1. auto.
      + intros r (q1 & q2 & q3 & q4 & q5 & q6). rewrite q1, h1. rewrite h1 in q4. auto.
        split; [lia|]. split; [auto|]. split; [auto|]. split; [auto|]. lia.
  Qed.
End Shape.

(** ** exact arithmetic *)
Section Exact.
  Context {Nt Lt : Type} `{HLL : LossLaws Nt Lt}.
  Variable M : Mat Nt.
  Variable n : nat.
  Variable D : nat -> nat -> Nt.
  Hypothesis HD : diss_matrix M n D.
  Local Notation v := (vals D).

  Lemma v_diss : dissimilarity n v.
  Proof. apply (emb_vals HD). Qed.

  Lemma build_first_sum_ok i : i < n ->
    oks (build_first_sum (Lt := Lt) M i) (fun s => (vL s == tdev v n [i])%Q).
  Proof.
    intros hi. pose proof (proj1 HD) as HM. unfold build_first_sum. rewrite (len_n HM).
    unfold tdev.
    apply foldM_seq with (I := fun t (s : Lt) => (vL s == sumQ (fun o => mindist v o [i]) (seq 0 t))%Q).
    - apply vL_zero.
    - intros j s hj hs. 
      assert (E : (sumQ (fun o => mindist v o [i]) (seq 0 (S j)) ==
                   sumQ (fun o => mindist v o [i]) (seq 0 j) + v j i)%Q).
      { rewrite sumQ_seq_S. unfold mindist at 2. simpl. reflexivity. }
      destruct (j =? i) eqn:e; cbn [negb].
      + cbn [oks]. apply Nat.eqb_eq in e. subst j. rewrite E. 
        pose proof (proj1 v_diss i hi). lra.
      + rewrite (get_ok HM) by auto. cbn [bind oks]. rewrite vL_add, (vL_D HD), E by auto. lra.
  Qed.

  Lemma build_first_ok k : 1 <= n ->
    oks (build_first (Lt := Lt) M k) (fun b => snd b < n /\ (vL (fst b) == tdev v n [snd b])%Q /\
      (forall y, y < n -> (tdev v n [snd b] <= tdev v n [y])%Q) /\
      (forall y, y < snd b -> (tdev v n [snd b] < tdev v n [y])%Q)).
  Proof.
    intros hn. unfold build_first. rewrite (len_n (proj1 HD)). eapply oks_mono.
    - apply foldM_seq with (I := fun t (b : Lt * nat) => t = 0 \/
        (snd b < n /\ (vL (fst b) == tdev v n [snd b])%Q /\
         (forall y, y < t -> (tdev v n [snd b] <= tdev v n [y])%Q) /\
         (forall y, y < snd b -> (tdev v n [snd b] < tdev v n [y])%Q))); [auto|].
      intros i b hi hb. eapply oks_bind; [apply build_first_sum_ok; auto|].
      intros s hs. cbv beta in hs. cbn [oks]. right.
      destruct ((i =? 0) || lltb s (fst b)) eqn:e; cbn [fst snd].
      + split; [auto|]. split; [auto|]. split; intros y hy; [destruct (Nat.eq_dec y i) as [->|]; [lra|]|];
          (destruct hb as [->|(h1 & h2 & h3 & h4)]; [lia|];
           apply orb_true_iff in e as [e|e]; [apply Nat.eqb_eq in e; lia|]; apply lltb_spec in e;
           specialize (h3 y ltac:(lia)); lra).
      + apply orb_false_iff in e as [e1 e2]. apply Nat.eqb_neq in e1.
        destruct hb as [->|(h1 & h2 & h3 & h4)]; [lia|].
        split; [auto|]. split; [auto|]. split; [|auto]. intros y hy.
        destruct (Nat.eq_dec y i) as [->|]; [|apply h3; lia].
        apply Qnot_lt_le. intros h. rewrite <- h2, <- hs in h. apply lltb_spec in h. congruence.
    - intros b [h|h]; [lia|auto].
  Qed.

  (** cached distances to the nearest of the medoids so far *)
  Definition dn_ok (meds : list nat) (dn : list Nt) : Prop :=
    length dn = n /\ forall o d, nth_error dn o = Some d -> okN d /\ (vN d == mindist v o meds)%Q.

  Definition gain (meds : list nat) (y : nat) : Q := (tdev v n (meds ++ [y]) - tdev v n meds)%Q.

  Lemma build_next_sum_ok meds dn i : meds <> [] -> inr n meds -> dn_ok meds dn -> i < n ->
    oks (build_next_sum (Lt := Lt) M dn i) (fun s => (vL s == gain meds i)%Q).
  Proof.
    intros hne hin [hl hd] hi. pose proof (proj1 HD) as HM. unfold build_next_sum.
    destruct (nth_error_ex dn (i := i)) as [d0 hd0]; [lia|]. rewrite (idx_some _ _ hd0).
    cbn [bind]. destruct (hd i d0 hd0) as [ok0 v0].
    eapply oks_mono.
    - apply foldM_enum with (I := fun t (s : Lt) =>
        (vL s == - mindist v i meds + sumQ (fun o => if o =? i then 0 else
           mindist v o (meds ++ [i]) - mindist v o meds) (seq 0 t))%Q).
      + simpl. rewrite vL_neg, vL_from, v0 by auto. lra.
      + intros o d s ho hs. destruct (hd o d ho) as [ok1 v1].
        assert (hon : o < n) by (rewrite <- hl; eapply nth_error_lt; eauto).
        pose proof (sumQ_seq_S (fun o => if o =? i then 0%Q else
           (mindist v o (meds ++ [i]) - mindist v o meds)%Q) o) as E. cbv beta in E.
        destruct (o =? i) eqn:e; cbn [negb].
        * cbn [oks]. rewrite E. lra.
        * rewrite (get_ok HM) by auto. cbn [bind oks]. rewrite E.
          rewrite (mindist_snoc v o i hne).
          assert (hok : okN (D o i)) by (apply (okD HD); auto).
          destruct (nltb (D o i) d) eqn:el.
          -- apply nltb_spec in el; auto. rewrite v1 in el. change (vN (D o i)) with (v o i) in el.
             rewrite vL_add, vL_sub, !vL_from, v1 by auto. change (vN (D o i)) with (v o i).
             destruct (Qlt_le_dec (v o i) (mindist v o meds)); lra.
          -- assert (hge : ~ (v o i < mindist v o meds)%Q).
             { intros h. rewrite <- v1 in h. apply nltb_spec in h; auto. congruence. }
             destruct (Qlt_le_dec (v o i) (mindist v o meds)); [tauto|lra].
    - intros s hs. rewrite hs, hl. unfold gain, tdev. rewrite <- sumQ_minus.
      rewrite <- (sumQ_single (- mindist v i meds) hi), <- sumQ_plus. apply sumQ_ext.
      intros o ho. apply in_seq in ho. destruct (Nat.eqb_spec o i) as [->|]; [|lra].
      rewrite (mindist_self (meds ++ [i]) v_diss hi (inr_app hin hi)); [lra|].
      apply in_or_app. simpl. auto.
  Qed.

  Lemma build_next_ok k meds dn : 1 <= n -> meds <> [] -> inr n meds -> dn_ok meds dn ->
    oks (build_next (Lt := Lt) M k dn (seq 0 n)) (fun b => snd b < n /\
      (vL (fst b) == gain meds (snd b))%Q /\
      (forall y, y < n -> (gain meds (snd b) <= gain meds y)%Q) /\
      (forall y, y < snd b -> (gain meds (snd b) < gain meds y)%Q)).
  Proof.
    intros hn hne hin hd. unfold build_next. eapply oks_mono.
    - apply foldM_seq with (I := fun t (b : Lt * nat) => t = 0 \/
        (snd b < n /\ (vL (fst b) == gain meds (snd b))%Q /\
         (forall y, y < t -> (gain meds (snd b) <= gain meds y)%Q) /\
         (forall y, y < snd b -> (gain meds (snd b) < gain meds y)%Q))); [auto|].
      intros i b hi hb. eapply oks_bind; [apply build_next_sum_ok with (meds := meds); auto|].
      intros s hs. cbv beta in hs. cbn [oks]. right.
      destruct ((i =? 0) || lltb s (fst b)) eqn:e; cbn [fst snd].
      + split; [auto|]. split; [auto|]. split; intros y hy; [destruct (Nat.eq_dec y i) as [->|]; [lra|]|];
          (destruct hb as [->|(h1 & h2 & h3 & h4)]; [lia|];
           apply orb_true_iff in e as [e|e]; [apply Nat.eqb_eq in e; lia|]; apply lltb_spec in e;
           specialize (h3 y ltac:(lia)); lra).
      + apply orb_false_iff in e as [e1 e2]. apply Nat.eqb_neq in e1.
        destruct hb as [->|(h1 & h2 & h3 & h4)]; [lia|].
        split; [auto|]. split; [auto|]. split; [|auto]. intros y hy.
        destruct (Nat.eq_dec y i) as [->|]; [|apply h3; lia].
        apply Qnot_lt_le. intros h. rewrite <- h2, <- hs in h. apply lltb_spec in h. congruence.
    - intros b [h|h]; [lia|auto].
  Qed.

  Lemma gain_nonpos meds y : meds <> [] -> (gain meds y <= 0)%Q.
  Proof.
    intros hne. unfold gain.
    assert (tdev v n (meds ++ [y]) <= tdev v n meds)%Q; [|lra].
    apply tdev_incl; auto. intros z hz. apply in_or_app. auto.
  Qed.

  Lemma gain_zero meds : meds <> [] -> inr n meds ->
    (forall y, y < n -> (0 <= gain meds y)%Q) -> (tdev v n meds == 0)%Q.
  Proof.
    intros hne hin hg.
    assert (hz : forall y, y < n -> (mindist v y meds == 0)%Q).
    { intros y hy. pose proof (tdev_snoc_le v_diss hy hne) as h1.
      specialize (hg y hy). unfold gain in hg.
      pose proof (mindist_nonneg meds v_diss hy hin). lra. }
    unfold tdev. rewrite (sumQ_ext _ (fun _ => 0%Q) _); [apply sumQ_zero|].
    intros o ho. apply in_seq in ho. apply hz. lia.
  Qed.

  Lemma gain_new meds y : meds <> [] -> (gain meds y < 0)%Q -> ~ In y meds.
  Proof.
    intros hne hg hin. unfold gain in hg.
    assert (tdev v n meds <= tdev v n (meds ++ [y]))%Q; [|lra].
    apply tdev_incl; [destruct meds; simpl; congruence|].
    intros z hz. apply in_app_or in hz as [hz|[<-|[]]]; auto.
  Qed.

  (** ** the cached records are those of [initial_assignment] *)
  Definition ia_rec (meds : list nat) (o : nat) (r : Rec Nt) : Prop :=
    ia_obj (Lt := Lt) M meds (nth 0 meds 0) o = Ok (r, lfrom (dd (near r))).

  Lemma ia_rec_one b o : b < n -> o < n ->
    ia_rec [b] o (mkRec (DP (Some 0) (D o b)) (DP None nzero)).
  Proof.
    intros hb ho. unfold ia_rec, ia_obj. simpl nth. rewrite (get_ok (proj1 HD)) by auto. auto.
  Qed.

  Lemma ia_rec_snoc meds x o r r' : meds <> [] ->
    ia_rec meds o r -> ia_step M o r (length meds, x) = Ok r' -> ia_rec (meds ++ [x]) o r'.
  Proof.
    intros hne h1 h2. unfold ia_rec, ia_obj in *.
    assert (e0 : nth 0 (meds ++ [x]) 0 = nth 0 meds 0) by (destruct meds; [congruence|auto]).
    rewrite e0. destruct (mget M o (nth 0 meds 0)) as [d0|]; [|discriminate]. cbn [bind] in *.
    assert (e : skipn 1 (enum (meds ++ [x])) = skipn 1 (enum meds) ++ [(length meds, x)]).
    { rewrite enum_app. destruct meds; [congruence|]. reflexivity. }
    rewrite e, foldM_app.
    destruct (foldM (ia_step M o) (skipn 1 (enum meds)) _) as [c|]; [|discriminate].
    cbn [bind] in *. injection h1 as h1 _. subst c. cbn [foldM]. rewrite h2. auto.
  Qed.

  Lemma ia_rec_near meds o r : meds <> [] -> inr n meds -> o < n -> ia_rec meds o r ->
    okN (dd (near r)) /\ (vN (dd (near r)) == mindist v o meds)%Q /\
    nearest v o meds (as_usize (di (near r))).
  Proof.
    intros hne hin ho hr. pose proof (proj1 HD) as HM.
    destruct (le_lt_dec 2 (length meds)) as [hk|hk].
    - pose proof (ia_obj_ok (Lt := Lt) HM hin ho hk) as h. unfold ia_rec in hr. rewrite hr in h.
      cbn [oks fst snd] in h. destruct h as [_ h].
      destruct (rec2_x HD h) as (a & s & hx). destruct (rec_x_near hx) as [e1 e2].
      destruct hx as (h1 & _ & _ & h4 & _ & h6 & _).
      rewrite h6, h4. split; [apply (okD HD); auto using inr_nth|]. split; [|auto].
      rewrite e1. reflexivity.
    - destruct meds as [|b [|c meds]]; [congruence| |simpl in hk; lia].
      assert (hb : b < n) by (apply hin; simpl; auto).
      pose proof (ia_rec_one hb ho) as h2. unfold ia_rec in *. rewrite hr in h2.
      injection h2 as -> _. cbn [near dd di as_usize]. split; [apply (okD HD); auto|].
      split; [unfold mindist; simpl; reflexivity|]. split; [simpl; lia|].
      intros c hc. simpl in hc. assert (c = 0) as -> by lia. lra.
  Qed.

  Record build_good (l : nat) (st : bst Nt Lt) : Prop := {
    bg_len : length (b_meds st) = l;
    bg_inr : inr n (b_meds st);
    bg_nodup : NoDup (b_meds st);
    bg_dlen : length (b_data st) = n;
    bg_data : forall o r, nth_error (b_data st) o = Some r -> ia_rec (b_meds st) o r;
    bg_loss : (vL (b_loss st) == tdev v n (b_meds st))%Q;
    bg_greedy : greedy v n (b_meds st)
  }.

  Lemma build_dn_ok l st : 1 <= l -> build_good l st ->
    dn_ok (b_meds st) (map (fun r => dd (near r)) (b_data st)).
  Proof.
    intros hl [h1 h2 h3 h4 h5 h6 h7]. split; [rewrite map_length; auto|].
    intros o d h. rewrite nth_error_map in h. destruct (nth_error (b_data st) o) as [r|] eqn:e; [|discriminate].
    injection h as <-.
    assert (ho : o < n) by (rewrite <- h4; eapply nth_error_lt; eauto).
    destruct (@ia_rec_near (b_meds st) o r) as (q1 & q2 & _); auto.
    destruct (b_meds st); simpl in *; [lia|congruence].
  Qed.

  Lemma NoDup_snoc A (l : list A) x : NoDup l -> ~ In x l -> NoDup (l ++ [x]).
  Proof.
    intros h1 h2. induction h1 as [|y l hy hl IH]; simpl; [constructor; auto; constructor|].
    constructor.
    - intros h. apply in_app_or in h as [h|[<-|[]]]; auto. apply h2. simpl. auto.
    - apply IH. intros h. apply h2. simpl. auto.
  Qed.

  Lemma build_step_ok k l st : 1 <= n -> 1 <= l -> build_good l st ->
    oks (build_step M k st l) (fun c => match c with
      | Next s => build_good (S l) s /\
          improve (dev_better v n) (map (fun y => b_meds st ++ [y]) (seq 0 n)) (b_meds st) = Some (b_meds s)
      | Break s => s = st /\ (tdev v n (b_meds st) == 0)%Q /\
          improve (dev_better v n) (map (fun y => b_meds st ++ [y]) (seq 0 n)) (b_meds st) = None end).
  Proof.
    intros hn hl hg. pose proof hg as [h1 h2 h3 h4 h5 h6 h7]. pose proof (proj1 HD) as HM.
    destruct (emb_vals HD) as [_ hdg].
    assert (hne : b_meds st <> []) by (destruct (b_meds st); simpl in *; [lia|congruence]).
    unfold build_step. rewrite map_fst_enum, h4.
    pose proof (build_next_ok k hn hne h2 (build_dn_ok hl hg)) as hb.
    apply oks_inv in hb as ([x bj] & -> & hbj & hx & hmin & hfst). cbn [bind fst snd] in *.
    destruct (lleb lzero x) eqn:ex.
    - cbn [oks]. split; auto. apply lleb_spec in ex. rewrite vL_zero in ex.
      split; [apply gain_zero; auto; intros y hy; specialize (hmin y hy); lra|].
      apply grow_none. intros y hy. specialize (hmin y (proj2 hy)). unfold gain in *. lra.
    - assert (hneg : (gain (b_meds st) bj < 0)%Q).
      { rewrite <- hx. apply Qnot_le_lt. intros h. rewrite <- (vL_zero (Nt := Nt)) in h.
        apply lleb_spec in h. congruence. }
      pose proof (gain_new hne hneg) as hnew.
      eapply oks_bind.
      + apply mapM_enum with (R := fun o r (p : Rec Nt * option Lt) =>
          ia_rec (b_meds st ++ [bj]) o (fst p) /\
          snd p = if o =? bj then None else Some (lfrom (dd (near (fst p))))).
        intros o r hr. assert (ho : o < n) by (rewrite <- h4; eapply nth_error_lt; eauto).
        pose proof (build_upd_obj_eq (Lt := Lt) HM l r ho hbj) as he.
        apply oks_inv in he as (r' & es & he).
        eapply oks_mono; [exact he|]. intros p (e1 & e2 & e3 & e4 & e5 & e6).
        rewrite (e1 hdg). split; [|rewrite e6, (e1 hdg); auto].
        apply ia_rec_snoc with (r := r); auto. rewrite h1. auto.
      + intros rs [hrl hr]. cbn [oks].
        assert (hr' : forall o p, nth_error rs o = Some p -> ia_rec (b_meds st ++ [bj]) o (fst p) /\
          snd p = if o =? bj then None else Some (lfrom (dd (near (fst p))))).
        { intros o p hp. destruct (nth_error_ex (b_data st) (i := o)) as [r0 hr0].
          { rewrite <- hrl. eapply nth_error_lt; eauto. }
          eapply hr; eauto. }
        assert (hin' : inr n (b_meds st ++ [bj])) by (apply inr_app; auto).
        split.
        2:{ cbn [b_meds]. unfold gain in *. apply grow_some; [lia|lra| |].
            - intros y hy. specialize (hmin y (proj2 hy)). lra.
            - intros y hy. specialize (hfst y (proj2 hy)). lra. }
        constructor; cbn [b_meds b_data b_loss].
        * rewrite app_length. simpl. lia.
        * auto.
        * apply NoDup_snoc; auto.
        * rewrite map_length. lia.
        * intros o r h. rewrite nth_error_map in h. destruct (nth_error rs o) as [p|] eqn:e; [|discriminate].
          injection h as <-. apply hr' in e. apply e.
        * assert (G : forall (l : list (Rec Nt * option Lt)) (s : Lt),
            (vL (fold_left (fun s x => match snd x with Some v => ladd s v | None => s end) l s) ==
             vL s + sumQ (fun x : Rec Nt * option Lt => match snd x with Some v => vL v | None => 0 end) l)%Q).
          { induction l0 as [|[a [b|]] l0 IH]; intros s; cbn [fold_left snd sumQ fold_right].
            - lra.
            - rewrite IH, vL_add. unfold sumQ. lra.
            - rewrite IH. unfold sumQ. lra. }
          rewrite G, vL_zero. unfold tdev.
          rewrite (sumQ_index _ (fun o => mindist v o (b_meds st ++ [bj]))).
          -- rewrite hrl, h4. lra.
          -- intros o p hp. destruct (hr' o p hp) as [q1 q2].
             assert (ho : o < n) by (rewrite <- h4, <- hrl; eapply nth_error_lt; eauto).
             assert (hne' : b_meds st ++ [bj] <> []) by (destruct (b_meds st); simpl; congruence).
             destruct (ia_rec_near hne' hin' ho q1) as (w1 & w2 & _).
             rewrite q2. destruct (Nat.eqb_spec o bj) as [->|].
             ++ rewrite (mindist_self _ v_diss hbj hin'); [reflexivity|].
                apply in_or_app. simpl. auto.
             ++ rewrite vL_from, w2 by auto. reflexivity.
        * apply greedy_snoc; auto. intros y hy. specialize (hmin y hy). unfold gain in hmin. lra.
  Qed.

  Lemma build_ok k : 1 <= n -> 1 <= k ->
    oks (pam_build_initialize (Lt := Lt) M k) (fun st => exists l, 1 <= l <= k /\ build_good l st /\
      (l = k \/ (tdev v n (b_meds st) == 0)%Q) /\
      b_meds st = grow v n (seq 0 n) (k - 1) [best_next v n []]).
  Proof.
    intros hn hk. unfold pam_build_initialize.
    pose proof (proj1 HD) as HM. destruct HM as (e1 & -> & e3). cbn [bind assertb].
    pose proof (build_first_ok k hn) as hf.
    apply oks_inv in hf as ([x b] & -> & hb & hx & hmin & hfst). cbn [bind fst snd] in *. rewrite e1.
    assert (hbn : best_next v n [] = b) by (apply first_index with (f := fun y => tdev v n [y]); auto).
    eapply oks_bind with (P := fun data => length data = n /\
      forall o r, nth_error data o = Some r -> ia_rec [b] o r).
    - apply mapM_seq with (R := fun o r => ia_rec [b] o r). intros o ho.
      rewrite e3 by auto. cbn [bind oks]. apply ia_rec_one; auto.
    - intros data [hl hd].
      apply forM_oks with (I := fun pre st => build_good (S (length pre)) st /\
        grow v n (seq 0 n) (k - 1) [b] = grow v n (seq 0 n) (k - 1 - length pre) (b_meds st)).
      + split; [|cbn [length b_meds]; rewrite Nat.sub_0_r; reflexivity].
        constructor; cbn [b_meds b_data b_loss length]; auto.
        * intros m [<-|[]]. auto.
        * constructor; auto. constructor.
        * intros i y hi hy. simpl in hi. assert (i = 0) as -> by lia. simpl. auto.
      + intros pre l post st e hi.
        assert (el : l = S (length pre)).
        { pose proof (f_equal (fun z => nth (length pre) z 0) e) as e'. cbv beta in e'.
          rewrite app_nth2, Nat.sub_diag in e' by lia. simpl in e'. rewrite <- e'.
          rewrite seq_nth; [auto|].
          apply (f_equal (@length nat)) in e. rewrite seq_length, app_length in e. simpl in e. lia. }
        assert (hlk : l < k).
        { assert (hin : In l (seq 1 (k - 1))) by (rewrite e; apply in_or_app; simpl; auto).
          apply in_seq in hin. lia. }
        destruct hi as [hi href]. replace (k - 1 - length pre) with (S (k - 1 - l)) in href by lia. cbn [grow] in href.
        rewrite <- el in hi. eapply oks_mono; [apply build_step_ok; eauto; lia|].
        intros [s|s].
        * intros [hs hst]. rewrite app_length. cbn [length]. replace (length pre + 1) with l by lia. rewrite hst in href. auto.
        * intros (-> & hz & hst). rewrite hst in href. exists l. split; [lia|]. rewrite hbn. auto.
      + intros st [hi href]. rewrite seq_length in hi, href. exists (S (k - 1)). split; [lia|]. split; [auto|].
        split; [left; lia|]. rewrite Nat.sub_diag in href. rewrite hbn. auto.
  Qed.

  Lemma build_assi l st : 1 <= l -> build_good l st ->
    length (assignment_of (b_data st)) = n /\
    (forall o, o < n -> nearest v o (b_meds st) (nth o (assignment_of (b_data st)) 0)).
  Proof.
    intros hl [h1 h2 h3 h4 h5 h6 h7]. split; [unfold assignment_of; rewrite map_length; auto|].
    intros o ho. destruct (nth_error_ex (b_data st) (i := o)) as [r hr]; [lia|].
    assert (e : nth o (assignment_of (b_data st)) 0 = as_usize (di (near r))).
    { apply nth_error_nth. unfold assignment_of. rewrite nth_error_map, hr. auto. }
    rewrite e. apply (@ia_rec_near (b_meds st) o r); auto.
    destruct (b_meds st); simpl in *; [lia|congruence].
  Qed.

  Lemma build_data l st : 2 <= l -> build_good l st ->
    data_ok n D (b_meds st) (b_data st) /\ data_own (b_meds st) (b_data st).
  Proof.
    intros hl [h1 h2 h3 h4 h5 h6 h7]. pose proof (proj1 HD) as HM. destruct (emb_vals HD) as [he hg].
    assert (hk : 2 <= length (b_meds st)) by lia.
    split; [split; [auto|]|].
    - intros o r hr. assert (ho : o < n) by (rewrite <- h4; eapply nth_error_lt; eauto).
      pose proof (ia_obj_ok (Lt := Lt) HM h2 ho hk) as h. rewrite (h5 o r hr) in h. apply h.
    - intros o r hr. assert (ho : o < n) by (rewrite <- h4; eapply nth_error_lt; eauto).
      pose proof (ia_obj_own (Lt := Lt) HM hg he h3 h2 ho hk) as h. rewrite (h5 o r hr) in h. apply h.
  Qed.

  Lemma pam_build_ok k : sizes n k ->
    oks (pam_build (Lt := Lt) M k) (fun '(loss, assi, meds) =>
      1 <= length meds <= k /\ medoids n (length meds) meds /\ greedy v n meds /\
      (vL loss == tdev v n meds)%Q /\ length assi = n /\
      (forall o, o < n -> nearest v o meds (nth o assi 0)) /\
      (length meds = k \/ (tdev v n meds == 0)%Q) /\
      meds = grow v n (seq 0 n) (k - 1) [best_next v n []]).
  Proof.
    intros hs. assert (hk : 1 <= n /\ 1 <= k) by (destruct hs; lia). destruct hk as [hn hk].
    unfold pam_build. rewrite (check_input_ok (proj1 HD) hs). cbn [bind].
    eapply oks_bind; [apply build_ok; auto|].
    intros st (l & hl & hg & he & href). cbn [oks].
    destruct (build_assi (proj1 hl) hg) as [a1 a2]. destruct hg as [h1 h2 h3 h4 h5 h6 h7].
    rewrite h1 in *. split; [auto|]. split; [split; auto|]. auto 10.
  Qed.

  (** ** pam is BUILD followed by the swap phase *)
  Definition same_but_loss (s1 s2 : pst Nt Lt) : Prop :=
    p_med s1 = p_med s2 /\ p_data s1 = p_data s2 /\ p_rl s1 = p_rl s2 /\
    (vL (p_loss s1) == vL (p_loss s2))%Q /\
    p_swaps s1 = p_swaps s2 /\ p_iter s1 = p_iter s2.

  Lemma pam_iteration_loss st1 st2 : same_but_loss st1 st2 ->
    match pam_iteration M st1, pam_iteration M st2 with
    | Ok (Next s1), Ok (Next s2) => same_but_loss s1 s2
    | Ok (Break s1), Ok (Break s2) => same_but_loss s1 s2
    | Panic p1, Panic p2 => p1 = p2
    | _, _ => False
    end.
  Proof.
    intros (h1 & h2 & h3 & h4 & h5 & h6). unfold pam_iteration.
    cbn [p_med p_data p_rl p_loss p_swaps p_iter]. rewrite h1, h2.
    destruct (foldM (pam_cand M (p_med st2) (p_data st2)) (seq 0 (mlen M)) (lzero, None)) as [best|];
      [|simpl; auto].
    cbn [bind]. unfold swap_best. cbn [p_med p_data p_rl p_loss p_swaps p_iter].
    destruct (lltb (fst best) lzero).
    - destruct (snd best) as [[b j]|]; [|auto]. 
      destruct (do_swap M (p_med st2) (p_data st2) b j) as [[[m' d'] l']|]; [|simpl; auto].
      cbn [bind].
      assert (e : lleb (p_loss st1) l' = lleb (p_loss st2) l').
      { destruct (lleb (p_loss st1) l') eqn:x1; destruct (lleb (p_loss st2) l') eqn:x2; auto.
        - apply lleb_spec in x1. rewrite h4 in x1. apply lleb_spec in x1. congruence.
        - apply lleb_spec in x2. rewrite <- h4 in x2. apply lleb_spec in x2. congruence. }
      rewrite e. destruct (lleb (p_loss st2) l'); unfold same_but_loss;
        cbn [p_med p_data p_rl p_loss p_swaps p_iter]; rewrite h3, h5, h6; auto 10.
      split; [auto|]. split; [auto|]. split; [auto|]. split; [reflexivity|]. auto.
    - unfold same_but_loss; cbn [p_med p_data p_rl p_loss p_swaps p_iter].
      rewrite h3, h5, h6; auto 10.
  Qed.

  Lemma pam_run_loss maxiter st1 st2 : same_but_loss st1 st2 ->
    match whileM maxiter (pam_iteration M) st1, whileM maxiter (pam_iteration M) st2 with
    | Ok s1, Ok s2 => same_but_loss s1 s2
    | Panic p1, Panic p2 => p1 = p2
    | _, _ => False
    end.
  Proof.
    revert st1 st2. induction maxiter; intros st1 st2 hs; [exact hs|].
    cbn [whileM]. pose proof (pam_iteration_loss hs) as h.
    destruct (pam_iteration M st1) as [[s1|s1]|]; destruct (pam_iteration M st2) as [[s2|s2]|];
      try contradiction; cbn [bind]; auto. apply IHmaxiter. auto.
  Qed.

  Definition same_result (r1 r2 : pam_result Lt) : Prop :=
    r_med r1 = r_med r2 /\ r_assi r1 = r_assi r2 /\ r_iter r1 = r_iter r2 /\
    r_swaps r1 = r_swaps r2 /\ (vL (r_loss r1) == vL (r_loss r2))%Q.

  Lemma build_initial_assignment l st : sizes n l -> 2 <= l -> build_good l st ->
    exists loss', initial_assignment (Lt := Lt) M (b_meds st) = Ok (loss', b_data st) /\
      (vL loss' == tdev v n (b_meds st))%Q.
  Proof.
    intros hs hl hg. pose proof (proj1 HD) as HM. destruct hg as [h1 h2 h3 h4 h5 h6 h7].
    rewrite <- h1 in hs.
    pose proof (initial_assignment_ok (Lt := Lt) HM hs h2 ltac:(lia)) as hi.
    apply oks_inv in hi as ([loss' data'] & e & hd & hsum & _). cbn [fst snd] in *.
    exists loss'. assert (ed : data' = b_data st).
    { unfold initial_assignment in e. rewrite (check_input_ok HM hs) in e. cbn [bind] in e.
      rewrite idx_nth with (d := 0) in e by lia. cbn [bind] in e. rewrite (len_n HM) in e.
      apply bind_ok in e as (rs & e & e2). apply bind_ok in e2 as (x & e2 & e3).
      injection e3 as -> <-.
      assert (hr : oks (mapM (ia_obj (Lt := Lt) M (b_meds st) (nth 0 (b_meds st) 0)) (seq 0 n))
        (fun rs => length rs = n /\ forall o y, nth_error rs o = Some y ->
           nth_error (b_data st) o = Some (fst y))).
      { apply mapM_seq with (R := fun o (y : Rec Nt * Lt) => nth_error (b_data st) o = Some (fst y)).
        intros o ho. destruct (nth_error_ex (b_data st) (i := o)) as [r hr]; [lia|].
        rewrite (h5 o r hr). cbn [oks fst]. auto. }
      rewrite e in hr. cbn [oks] in hr. destruct hr as [q1 q2].
      apply nth_ext with (d := mkRec (DP None nzero) (DP None nzero)) (d' := mkRec (DP None nzero) (DP None nzero)).
      - rewrite map_length. lia.
      - intros o ho. rewrite map_length in ho. destruct (nth_error_ex rs (i := o)) as [y hy]; [auto|].
        rewrite (nth_error_nth _ _ _ (q2 o y hy)). apply nth_error_nth.
        rewrite nth_error_map, hy. auto. }
    subst data'. split; auto. eapply near_sum_tdev; eauto.
  Qed.

  (** pam returns what pam_swap returns for the medoids of BUILD *)
  Lemma pam_build_swap k maxiter : sizes n k ->
    oks (pam (Lt := Lt) M k maxiter) (fun r =>
      oks (pam_build (Lt := Lt) M k) (fun '(_, _, meds) =>
        oks (pam_swap (Lt := Lt) M meds maxiter) (fun r' => same_result r r'))).
  Proof.
    intros hs. assert (hk : 1 <= n /\ 1 <= k) by (destruct hs; lia). destruct hk as [hn hk].
    pose proof (proj1 HD) as HM.
    unfold pam, pam_build. rewrite (check_input_ok HM hs). cbn [bind].
    pose proof (build_ok hn hk) as hb. apply oks_inv in hb as (st & -> & l & hl & hg & _).
    cbn [bind oks]. pose proof hg as [h1 h2 h3 h4 h5 h6 h7].
    assert (hsl : sizes n (length (b_meds st))).
    { rewrite h1. destruct hs as (a1 & a2 & a3). split; [lia|]. split; [auto|]. lia. }
    unfold pam_swap, pam_optimize.
    destruct (Nat.eq_dec l 1) as [->|hl2].
    - rewrite h1, Nat.eqb_refl.
      assert (hex : exists p, initial_assignment (Lt := Lt) M (b_meds st) = Ok p).
      { unfold initial_assignment. rewrite (check_input_ok HM hsl). cbn [bind].
        rewrite idx_nth with (d := 0) by lia. cbn [bind]. rewrite (len_n HM).
        assert (hm : oks (mapM (ia_obj (Lt := Lt) M (b_meds st) (nth 0 (b_meds st) 0)) (seq 0 n))
                         (fun rs => length rs = n /\ forall (o : nat) (y : Rec Nt * Lt), nth_error rs o = Some y -> True)).
        { apply mapM_seq with (R := fun _ (_ : Rec Nt * Lt) => True). intros o ho.
          destruct (nth_error_ex (b_data st) (i := o)) as [r hr]; [lia|]. rewrite (h5 o r hr). exact I. }
        apply oks_inv in hm as (rs & -> & hrl & _). cbn [bind].
        destruct (reduce_some ladd (l := map snd rs)) as [x ->]; [|cbn; eauto].
        destruct rs; simpl in *; [lia|congruence]. }
      destruct hex as ([l0 d0] & ->). cbn [bind]. simpl (1 =? 1).
      pose proof (single_medoid_shape (Lt := Lt) HM h1 h2) as hm.
      apply oks_inv in hm as (r & -> & _). cbn [oks]. unfold same_result.
      split; [auto|]. split; [auto|]. split; [auto|]. split; [auto|]. reflexivity.
    - rewrite h1. replace (l =? 1) with false by (symmetry; apply Nat.eqb_neq; auto).
      rewrite h1 in hsl. destruct (build_initial_assignment hsl ltac:(lia) hg) as (loss' & -> & hl').
      cbn [bind].
      assert (hsame : same_but_loss (mkP (b_meds st) (b_data st) [] (b_loss st) 0 0)
                                    (mkP (b_meds st) (b_data st) [] loss' 0 0)).
      { unfold same_but_loss. cbn. split; [auto|]. split; [auto|]. split; [auto|].
        split; [rewrite hl'; auto|auto]. }
      pose proof (pam_run_loss maxiter hsame) as hrun.
      assert (hl3 : 2 <= l) by lia. destruct (build_data hl3 hg) as [hd1 hd2].
      pose proof (pam_optimize_shape HM (Lt := Lt)) as hos.
      assert (hzi : lltb (lzero : Lt) lzero = false).
      { destruct (lltb (lzero : Lt) lzero) eqn:e; auto. apply lltb_spec in e. lra. }
      specialize (hos hzi (b_meds st) (b_data st) maxiter (b_loss st) hn ltac:(lia) h2 hd1).
      unfold pam_optimize in hos. rewrite h1 in hos.
      replace (l =? 1) with false in hos by (symmetry; apply Nat.eqb_neq; auto).
      destruct (whileM maxiter (pam_iteration M) (mkP (b_meds st) (b_data st) [] (b_loss st) 0 0)) as [s1|];
        [|contradiction].
      destruct (whileM maxiter (pam_iteration M) (mkP (b_meds st) (b_data st) [] loss' 0 0)) as [s2|];
        [|contradiction].
      destruct hrun as (q1 & q2 & q3 & q4 & q5 & q6). cbn [bind oks]. unfold same_result.
      cbn [r_med r_assi r_iter r_swaps r_loss]. rewrite q1, q2, q5, q6. auto 10.
  Qed.
End Exact.
