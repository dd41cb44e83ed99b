(** BuildMsc.v -- the BUILD initialization of pammedsil.rs, and pammedsil. *)
From Coq Require Import ZArith QArith Lqa Lia.
From Verif Require Import Base Num M_Mat M_Util M_Fasterpam M_Pam M_Silhouette M_Msc M_Pammedsil Hoare
  Spec SpecFacts Laws PamShape PamExact Reference LocalSearch ChooseFacts FpFacts PamFacts BuildFacts PamMain SortFacts SilFacts
  MscShape MscExact MscFacts MscK2 MscMain.
Set Implicit Arguments.
Open Scope nat_scope.

Lemma skipn_seq0 n : skipn 1 (seq 0 n) = seq 1 (n - 1).
Proof. destruct n; [reflexivity|]. simpl. rewrite Nat.sub_0_r. auto. Qed.

Lemma nth_split_seq (pre post : list nat) a l len : seq a len = pre ++ l :: post ->
  l = a + length pre /\ length pre < len.
Proof.
  intros e. pose proof (f_equal (fun z => nth (length pre) z 0) e) as e'. cbv beta in e'.
  rewrite app_nth2, Nat.sub_diag in e' by lia. simpl in e'.
  apply (f_equal (@length nat)) in e. rewrite seq_length, app_length in e. simpl in e.
  rewrite seq_nth in e' by lia. lia.
Qed.

(** ** without arithmetic laws *)
Section Shape.
  Context {Nt Lt : Type} `{HNN : NumN Nt} `{HNL : NumL Lt} `{HFN : FromN Nt Lt}.
  Variable M : Mat Nt.
  Variable n : nat.
  Variable D : nat -> nat -> Nt.
  Hypothesis HM : is_matrix M n D.

  (** no candidate: the initial value [(0, k)] *)
  Lemma build_next1_shape k (dn : list Nt) : length dn = n ->
    oks (build_next (Lt := Lt) M k dn (seq 1 (n - 1))) (fun b => fst b = lzero \/ snd b < n).
  Proof.
    intros hl. unfold build_next.
    apply foldM_inv; [auto|].
    intros i b hi hb. apply in_seq in hi.
    eapply oks_bind; [apply (build_next_sum_shape (Lt := Lt) HM); [auto|lia]|].
    intros s _. cbn [oks]. destruct ((i =? 0) || lltb s (fst b)); [right; simpl; lia|auto].
  Qed.

  Lemma rect3_app X t meds x o r : t <= length meds -> rect3 n D X t meds o r -> rect3 n D X t (meds ++ [x]) o r.
  Proof.
    intros ht hr.
    assert (hn : forall c, c < t -> nth c (meds ++ [x]) 0 = nth c meds 0)
      by (intros c hc; apply app_nth1; lia).
    destruct hr as [(-> & [h1 h2] & h3 & h4)|[h (a & b & ha & hb & hab & [hai had] & [hbi hbd] & hm & h3)]].
    - left. split; auto. split; [split; [auto|rewrite hn by lia; auto]|auto].
    - right. split; auto. exists a, b. split; [auto|]. split; [auto|]. split; [auto|].
      split; [split; [auto|rewrite hn by auto; auto]|].
      split; [split; [auto|rewrite hn by auto; auto]|]. split.
      + intros hx hg v he. destruct (hm hx hg v he) as [m1 m2]. split.
        * intros c hc. rewrite !hn by auto. auto.
        * intros c hc. match goal with |- _ <> _ -> _ => intros hc1 end. rewrite !hn by auto. auto.
      + destruct h3 as [h3|[h3 (c & hc & hca & hcb & [hci hcd] & hc3)]]; [left; auto|right].
        split; [auto|]. exists c. split; [auto|]. split; [auto|]. split; [auto|].
        split; [split; [auto|rewrite hn by auto; auto]|].
        intros hx hg v he y hy y1 y2. rewrite !hn by auto. apply hc3; auto.
  Qed.

  (** the update of BUILD is the update of initial_assignment *)
  Lemma build3_upd_obj_eq l bj j r : j < n -> bj < n ->
    oks (ia3_step M j r (l, bj)) (fun r' =>
      oks (build3_upd_obj (Lt := Lt) M l bj (j, r)) (fun p =>
        (Dg n D -> fst p = r') /\ di (near3 (fst p)) = di (near3 r') /\ seco3 (fst p) = seco3 r' /\
        third3 (fst p) = third3 r' /\ snd p = rec_ratio (fst p))).
  Proof.
    intros hj hb. simpl ia3_step. rewrite (get_ok HM) by auto. cbn [bind oks]. unfold build3_upd_obj.
    destruct (j =? bj) eqn:e.
    - apply Nat.eqb_eq in e. subst bj. rewrite orb_true_r. simpl.
      split; [|tauto]. intros hg. rewrite hg by auto. auto.
    - rewrite orb_false_r. rewrite (get_ok HM) by auto. cbn [bind oks fst snd]. auto 10.
  Qed.

  Lemma rec3_near_dd X t meds o r r' :
    rec3 n D X t meds o r -> di (near3 r') = di (near3 r) -> seco3 r' = seco3 r -> third3 r' = third3 r ->
    (Dg n D -> dd (near3 r') = dd (near3 r)) -> rec3 n D X t meds o r'.
  Proof.
    intros (a & b & ha & hb & hab & [hai had] & [hbi hbd] & hm & h3) e1 e2 e4 e3. exists a, b.
    split; [auto|]. split; [auto|]. split; [auto|].
    split; [split; [congruence|intros hg; rewrite e3 by auto; auto]|].
    split; [split; rewrite e2; auto|]. rewrite e4. auto.
  Qed.

  Record build3_inv (l : nat) (st : b3st Nt Lt) : Prop := {
    b3i_len : length (b3_meds st) = l;
    b3i_inr : inr n (b3_meds st);
    b3i_dlen : length (b3_data st) = n;
    b3i_data : forall o r, nth_error (b3_data st) o = Some r -> rect3 n D True l (b3_meds st) o r
  }.

  Lemma build3_step_shape (hz : lleb (lzero : Lt) lzero = true) k l st : 1 <= l -> build3_inv l st ->
    oks (build3_step M k st l) (fun c => match c with
      | Next s => build3_inv (S l) s | Break s => s = st end).
  Proof.
    intros hl [h1 h2 h3 h4]. unfold build3_step. rewrite map_fst_enum, h3, skipn_seq0.
    assert (hb : oks (build_next (Lt := Lt) M k (map (fun r => dd (near3 r)) (b3_data st)) (seq 1 (n - 1)))
                     (fun b => fst b = lzero \/ snd b < n))
      by (apply build_next1_shape; rewrite map_length; auto).
    apply oks_inv in hb as ([x bj] & -> & hbj). cbn [bind fst snd] in *.
    destruct (lleb lzero x) eqn:ex; [reflexivity|].
    destruct hbj as [->|hbj]; [congruence|].
    eapply oks_bind.
    - apply mapM_enum with (R := fun o r (p : Reco Nt * Lt) =>
        rect3 n D True (S l) (b3_meds st ++ [bj]) o (fst p)).
      intros o r hr. assert (ho : o < n) by (rewrite <- h3; eapply nth_error_lt; eauto).
      assert (ht : nth_error (b3_meds st ++ [bj]) l = Some bj).
      { rewrite nth_error_app2 by lia. rewrite h1, Nat.sub_diag. auto. }
      assert (hrt : rect3 n D True l (b3_meds st ++ [bj]) o r) by (apply rect3_app; auto; lia).
      pose proof (ia3_step_ok HM (inr_app h2 hbj) ho hl ht hrt) as hs.
      pose proof (build3_upd_obj_eq l r ho hbj) as he.
      apply oks_inv in hs as (r' & es & hs). rewrite es in he. cbn [oks] in he.
      eapply oks_mono; [exact he|]. intros p (e1 & e2 & e3 & e4 & _).
      right. split; [lia|]. apply rec3_near_dd with (r := r'); auto.
      intros hg. rewrite e1; auto.
    - intros rs [hrl hr]. cbn [oks]. constructor; cbn [b3_meds b3_data].
      + rewrite app_length. simpl. lia.
      + apply inr_app; auto.
      + rewrite map_length. lia.
      + intros o r h. rewrite nth_error_map in h. destruct (nth_error rs o) as [p|] eqn:e; [|discriminate].
        injection h as <-. destruct (nth_error_ex (b3_data st) (i := o)) as [r0 hr0].
        { rewrite <- hrl. eapply nth_error_lt; eauto. }
        eapply hr; eauto.
  Qed.

  Lemma build3_shape (hz : lleb (lzero : Lt) lzero = true) k : 1 <= n -> 1 <= k ->
    oks (pammedsil_build_initialize (Lt := Lt) M k) (fun st => exists l, 1 <= l <= k /\ build3_inv l st).
  Proof.
    intros hn hk. unfold pammedsil_build_initialize.
    destruct HM as (e1 & e2 & e3).
    pose proof (build_first_shape (Lt := Lt) HM k hn) as hf.
    apply oks_inv in hf as ([x b] & -> & hb). cbn [bind fst snd] in *. rewrite e1.
    eapply oks_bind with (P := fun data => length data = n /\
      forall o r, nth_error data o = Some r -> rect3 n D True 1 [b] o r).
    - apply mapM_seq with (R := fun o r => rect3 n D True 1 [b] o r). intros o ho.
      rewrite e3 by auto. cbn [bind oks]. apply rect3_one. auto.
    - intros data [hl hd].
      apply forM_oks with (I := fun pre st => build3_inv (S (length pre)) st).
      + constructor; cbn [b3_meds b3_data length]; auto. intros m [<-|[]]. auto.
      + intros pre l post st e hi. apply nth_split_seq in e as [el hlk]. simpl in el.
        rewrite <- el in hi. eapply oks_mono; [apply build3_step_shape; eauto; lia|].
        intros [s|s].
        * intros hs. rewrite app_length. simpl. replace (S (length pre + 1)) with (S l) by lia. auto.
        * intros ->. exists l. split; [lia|auto].
      + intros st hi. rewrite seq_length in hi. exists (S (k - 1)). split; [lia|auto].
  Qed.

  Lemma pammedsil_shape (zero_irrefl : lltb (lzero : Lt) lzero = false) (hz : lleb (lzero : Lt) lzero = true)
      k maxiter : sizes n k ->
    exists l, 1 <= l <= k /\ returns n (pammedsil (Lt := Lt) M k maxiter) l.
  Proof.
    intros hs. assert (hk : 1 <= n /\ 1 <= k) by (destruct hs; lia). destruct hk as [hn hk].
    unfold pammedsil. rewrite (check_input_ok HM hs). cbn [bind].
    pose proof (build3_shape hz hn hk) as hb. apply oks_inv in hb as (st & -> & l & hl & [h1 h2 h3 h4]).
    cbn [bind]. exists l. split; [auto|].
    destruct (Nat.eq_dec l 1) as [->|hl2].
    - unfold pammedsil_optimize. rewrite h1, Nat.eqb_refl.
      destruct (b3_meds st) as [|x [|]]; simpl in h1; try lia. apply (single_returns HM). apply h2. simpl. auto.
    - pose proof (pammedsil_optimize_shape (Lt := Lt) HM zero_irrefl (med := b3_meds st) (data := b3_data st)
        maxiter (b3_loss st) hn ltac:(lia) h2) as h.
      rewrite <- h1. eapply res_shape_returns. apply h.
      split; auto. intros o r hr. destruct (h4 o r hr) as [[q _]|[_ q]]; [lia|]. rewrite h1. auto.
  Qed.
End Shape.

(** ** exact arithmetic *)
Section Exact.
  Context {Nt Lt : Type} `{HLL : LossLaws Nt Lt} `{HAL : !AddLaws Nt} `{HDL : !DivLaws Nt Lt}.
  Variable M : Mat Nt.
  Variable n : nat.
  Variable D : nat -> nat -> Nt.
  Hypothesis HD : diss_matrix M n D.
  Local Notation v := (vals D).

  Lemma build_next1_ok k meds dn : meds <> [] -> inr n meds -> dn_ok n D meds dn ->
    oks (build_next (Lt := Lt) M k dn (seq 1 (n - 1))) (fun b =>
      ((vL (fst b) == 0)%Q \/ (1 <= snd b < n /\ (vL (fst b) == gain n D meds (snd b))%Q)) /\
      (vL (fst b) <= 0)%Q /\
      (forall y, 1 <= y < n -> (vL (fst b) <= gain n D meds y)%Q) /\
      ((vL (fst b) < 0)%Q -> forall y, 1 <= y < snd b -> (vL (fst b) < gain n D meds y)%Q)).
  Proof.
    intros hne hin hd. unfold build_next. eapply oks_mono.
    - apply foldM_oks with (I := fun pre (b : Lt * nat) =>
        ((vL (fst b) == 0)%Q \/ (1 <= snd b < n /\ (vL (fst b) == gain n D meds (snd b))%Q)) /\
        (vL (fst b) <= 0)%Q /\
        (forall y, In y pre -> (vL (fst b) <= gain n D meds y)%Q) /\
        ((vL (fst b) < 0)%Q -> forall y, 1 <= y < snd b -> (vL (fst b) < gain n D meds y)%Q)).
      + cbn [fst snd]. pose proof vL_zero as hz. split; [left; exact hz|].
        split; [rewrite hz; lra|]. split; [intros y []|]. intros h. lra.
      + intros pre i post b e (hb1 & hb2 & hb3 & hb4).
        pose proof e as esq. apply nth_split_seq in e as [ei hlen].
        eapply oks_bind; [apply (build_next_sum_ok HD) with (meds := meds); auto; lia|].
        intros s hs. cbv beta in hs. cbn [oks].
        replace (i =? 0) with false by (symmetry; apply Nat.eqb_neq; lia). cbn [orb].
        destruct (lltb s (fst b)) eqn:el; cbn [fst snd].
        * apply lltb_spec in el. split; [right; split; [lia|auto]|]. split; [lra|].
          split; [intros y hy|intros _ y hy1].
          -- apply in_app_or in hy as [hy|[<-|[]]]; [|lra]. specialize (hb3 y hy). lra.
          -- assert (hy2 : In y pre).
             { assert (hin' : In y (seq 1 (n - 1))) by (apply in_seq; lia). rewrite esq in hin'.
               apply in_app_or in hin' as [|[->|h]]; auto; [lia|]. exfalso.
               destruct (in_split _ _ h) as (p1 & p2 & ->).
               pose proof (seq_NoDup (n - 1) 1) as hnd. rewrite app_comm_cons, app_assoc in esq.
               apply nth_split_seq in esq as [ey _]. rewrite app_length in ey. simpl in ey. lia. }
             specialize (hb3 y hy2). lra.
        * split; [auto|]. split; [auto|]. split; [|auto].
          intros y hy. apply in_app_or in hy as [hy|[<-|[]]]; [auto|].
          apply Qnot_lt_le. intros h. rewrite <- hs in h. apply lltb_spec in h. congruence.
    - intros b (h1 & h2 & h3 & h4). split; [auto|]. split; [auto|]. split; [|auto]. intros y hy. apply h3. apply in_seq. lia.
  Qed.

  (** ** the cached records are those of [initial_assignment] *)
  Definition ia3_rec (meds : list nat) (o : nat) (r : Reco Nt) : Prop :=
    ia3_obj (Lt := Lt) M meds (nth 0 meds 0) o = Ok (r, rec_ratio r).

  Lemma ia3_rec_one b o : b < n -> o < n ->
    ia3_rec [b] o (mkReco (DP (Some 0) (D o b)) (DP None nzero) (DP None nzero)).
  Proof.
    intros hb ho. unfold ia3_rec, ia3_obj. simpl nth. rewrite (get_ok (proj1 HD)) by auto. reflexivity.
  Qed.

  Lemma ia3_rec_snoc meds x o r r' : meds <> [] ->
    ia3_rec meds o r -> ia3_step M o r (length meds, x) = Ok r' -> ia3_rec (meds ++ [x]) o r'.
  Proof.
    intros hne h1 h2. unfold ia3_rec, ia3_obj in *.
    assert (e0 : nth 0 (meds ++ [x]) 0 = nth 0 meds 0) by (destruct meds; [congruence|auto]).
    rewrite e0. destruct (mget M o (nth 0 meds 0)) as [d0|]; [|discriminate]. cbn [bind] in *.
    assert (e : skipn 1 (enum (meds ++ [x])) = skipn 1 (enum meds) ++ [(length meds, x)]).
    { rewrite enum_app. destruct meds; [congruence|]. reflexivity. }
    rewrite e, foldM_app.
    destruct (foldM (ia3_step M o) (skipn 1 (enum meds)) _) as [c|]; [|discriminate].
    cbn [bind] in *. injection h1 as h1 _. subst c. cbn [foldM]. rewrite h2. auto.
  Qed.

  Lemma ia3_rec_near meds o r : meds <> [] -> inr n meds -> o < n -> ia3_rec meds o r ->
    okN (dd (near3 r)) /\ (vN (dd (near3 r)) == mindist v o meds)%Q.
  Proof.
    intros hne hin ho hr. pose proof (proj1 HD) as HM. pose proof (emb_vals HD) as [he hdg].
    assert (hcase : length meds = 1 \/ 2 <= length meds) by (destruct meds as [|a [|b l]]; simpl; auto; [congruence|lia]).
    destruct hcase as [hk|hk].
    - destruct meds as [|b [|c meds]]; try discriminate hk.
      assert (hb : b < n) by (apply hin; simpl; auto).
      pose proof (ia3_rec_one hb ho) as h2. unfold ia3_rec in *. rewrite hr in h2.
      injection h2 as -> _. cbn [near3 dd di as_usize]. split; [apply (okD HD); auto|].
      unfold mindist. simpl. reflexivity.
    - pose proof (ia3_obj_ok (Lt := Lt) HM True hin ho hk) as h. unfold ia3_rec in hr. rewrite hr in h.
      cbn [oks fst snd] in h. destruct h as [_ (a & b & h1 & h2 & h3 & [h4 h5] & _ & h6 & _)].
      specialize (h6 I hdg v he). destruct h6 as [h6 _].
      rewrite (h5 hdg). split; [apply (okD HD); auto using inr_nth|].
      rewrite (nearest_mindist (a := a)); [reflexivity|]. split; auto.
  Qed.

  Record build3_good (l : nat) (st : b3st Nt Lt) : Prop := {
    g3_len : length (b3_meds st) = l;
    g3_inr : inr n (b3_meds st);
    g3_nodup : NoDup (b3_meds st);
    g3_dlen : length (b3_data st) = n;
    g3_data : forall o r, nth_error (b3_data st) o = Some r -> ia3_rec (b3_meds st) o r;
    g3_loss : 2 <= l -> (vL (b3_loss st) == rtot v n (b3_meds st))%Q;
    g3_greedy : greedy_but_0 v n (b3_meds st)
  }.

  Lemma build3_dn_ok l st : 1 <= l -> build3_good l st ->
    dn_ok n D (b3_meds st) (map (fun r => dd (near3 r)) (b3_data st)).
  Proof.
    intros hl [h1 h2 h3 h4 h5 h6 h7]. split; [rewrite map_length; auto|].
    intros o d h. rewrite nth_error_map in h. destruct (nth_error (b3_data st) o) as [r|] eqn:e; [|discriminate].
    injection h as <-.
    assert (ho : o < n) by (rewrite <- h4; eapply nth_error_lt; eauto).
    apply (@ia3_rec_near (b3_meds st) o r); auto.
    destruct (b3_meds st); simpl in *; [lia|congruence].
  Qed.

  Lemma greedy_but_0_snoc meds x : greedy_but_0 v n meds -> meds <> [] ->
    (forall y, 1 <= y < n -> (tdev v n (meds ++ [x]) <= tdev v n (meds ++ [y]))%Q) ->
    greedy_but_0 v n (meds ++ [x]).
  Proof.
    intros hg hne hx i y hi hy h0. rewrite app_length in hi. simpl in hi.
    assert (hc : i = length meds \/ i < length meds) by lia.
    destruct hc as [->|hi'].
    - rewrite firstn_all2 by (rewrite app_length; simpl; lia).
      rewrite firstn_app, Nat.sub_diag, firstn_all. simpl firstn. rewrite app_nil_r. apply hx.
      destruct h0 as [h0|h0]; [destruct meds; [congruence|discriminate h0]|lia].
    - rewrite !firstn_app. replace (S i - length meds) with 0 by lia.
      replace (i - length meds) with 0 by lia. simpl (firstn 0 _). rewrite !app_nil_r. auto.
  Qed.

  (** when BUILD stops, every object but 0 has a medoid at distance 0 *)
  Definition stopped (meds : list nat) : Prop := forall y, 1 <= y < n -> (mindist v y meds == 0)%Q.

  Lemma ia3_data meds data : inr n meds -> NoDup meds -> 2 <= length meds -> length data = n ->
    (forall o r, nth_error data o = Some r -> ia3_rec meds o r) ->
    data3_ok n D True meds data /\ data3_own meds data.
  Proof.
    intros h2 h3 hk h4 h5. pose proof (proj1 HD) as HM. pose proof (emb_vals HD) as [he hg].
    split; [split; [auto|]|].
    - intros o r hr. assert (ho : o < n) by (rewrite <- h4; eapply nth_error_lt; eauto).
      pose proof (ia3_obj_ok (Lt := Lt) HM True h2 ho hk) as h. rewrite (h5 o r hr) in h. apply h.
    - intros o r hr. assert (ho : o < n) by (rewrite <- h4; eapply nth_error_lt; eauto).
      pose proof (ia3_obj_own (Lt := Lt) HM (X := True) I hg he h3 h2 ho ltac:(lia)) as h. rewrite (h5 o r hr) in h. apply h.
  Qed.

  Lemma fold_ladd_snd A (rs : list (A * Lt)) (s : Lt) :
    (vL (fold_left (fun s x => ladd s (snd x)) rs s) == vL s + sumQ (fun x : A * Lt => vL (snd x)) rs)%Q.
  Proof.
    revert s. induction rs as [|[a b] rs IH]; intros s; cbn [fold_left snd sumQ fold_right]; [lra|].
    rewrite IH, vL_add. unfold sumQ. cbn [snd]. lra.
  Qed.

  Lemma build3_step_ok k l st : 1 <= l -> build3_good l st ->
    oks (build3_step M k st l) (fun c => match c with
      | Next s => build3_good (S l) s /\
          improve (dev_better v n) (map (fun y => b3_meds st ++ [y]) (seq 1 (n - 1))) (b3_meds st) = Some (b3_meds s)
      | Break s => s = st /\ stopped (b3_meds st) /\
          improve (dev_better v n) (map (fun y => b3_meds st ++ [y]) (seq 1 (n - 1))) (b3_meds st) = None end).
  Proof.
    intros hl hg. pose proof hg as [h1 h2 h3 h4 h5 h6 h7]. pose proof (proj1 HD) as HM.
    pose proof (emb_vals HD) as [he hdg].
    assert (hne : b3_meds st <> []) by (destruct (b3_meds st); simpl in *; [lia|congruence]).
    unfold build3_step. rewrite map_fst_enum, h4, skipn_seq0.
    pose proof (build_next1_ok k hne h2 (build3_dn_ok hl hg)) as hb.
    apply oks_inv in hb as ([x bj] & -> & hx & hx0 & hmin & hfst). cbn [bind fst snd] in *.
    destruct (lleb lzero x) eqn:ex.
    - cbn [oks]. split; auto. apply lleb_spec in ex. rewrite vL_zero in ex.
      split; [|apply grow_none; intros y hy; specialize (hmin y ltac:(lia)); unfold gain in hmin; lra].
      intros y hy. specialize (hmin y hy). unfold gain in hmin.
      pose proof (tdev_snoc_le (v_diss HD) (proj2 hy) hne) as h8.
      pose proof (mindist_nonneg (b3_meds st) (v_diss HD) (proj2 hy) h2). lra.
    - assert (hneg : (vL x < 0)%Q).
      { apply Qnot_le_lt. intros h. rewrite <- (vL_zero (Nt := Nt)) in h.
        apply lleb_spec in h. congruence. }
      destruct hx as [hx|[hbj hx]]; [lra|].
      assert (hnew : ~ In bj (b3_meds st)) by (apply (gain_new (n := n) (D := D) hne); lra).
      destruct hbj as [hbj0 hbj].
      eapply oks_bind.
      + apply mapM_enum with (R := fun o r (p : Reco Nt * Lt) =>
          ia3_rec (b3_meds st ++ [bj]) o (fst p) /\ snd p = rec_ratio (fst p)).
        intros o r hr. assert (ho : o < n) by (rewrite <- h4; eapply nth_error_lt; eauto).
        pose proof (build3_upd_obj_eq (Lt := Lt) HM l r ho hbj) as hu.
        apply oks_inv in hu as (r' & es & hu).
        eapply oks_mono; [exact hu|]. intros p (e1 & e2 & e3 & e4 & e5).
        rewrite (e1 hdg) in *. split; [|auto].
        apply ia3_rec_snoc with (r := r); auto. rewrite h1. auto.
      + intros rs [hrl hr]. cbn [oks].
        assert (hr' : forall o p, nth_error rs o = Some p -> ia3_rec (b3_meds st ++ [bj]) o (fst p) /\
          snd p = rec_ratio (fst p)).
        { intros o p hp. destruct (nth_error_ex (b3_data st) (i := o)) as [r0 hr0].
          { rewrite <- hrl. eapply nth_error_lt; eauto. }
          eapply hr; eauto. }
        assert (hin' : inr n (b3_meds st ++ [bj])) by (apply inr_app; auto).
        assert (hnd' : NoDup (b3_meds st ++ [bj])) by (apply NoDup_snoc; auto).
        assert (hdat : forall o r, nth_error (map fst rs) o = Some r -> ia3_rec (b3_meds st ++ [bj]) o r).
        { intros o r h. rewrite nth_error_map in h. destruct (nth_error rs o) as [p|] eqn:e; [|discriminate].
          injection h as <-. apply hr' in e. apply e. }
        assert (hl' : length (b3_meds st ++ [bj]) = S l) by (rewrite app_length; simpl; lia).
        assert (hk' : 2 <= length (b3_meds st ++ [bj])) by lia.
        assert (hdl : length (map fst rs) = n) by (rewrite map_length; lia).
        destruct (ia3_data (map fst rs) hin' hnd' hk' hdl hdat) as [hd3 _].
        split.
        2:{ cbn [b3_meds]. specialize (hfst hneg). unfold gain in *. apply grow_some; [lia|lra| |].
            - intros y hy. specialize (hmin y ltac:(lia)). lra.
            - intros y hy. specialize (hfst y hy). lra. }
        constructor; cbn [b3_meds b3_data b3_loss]; auto.
        * intros _. rewrite fold_ladd_snd, vL_zero. unfold rtot.
          rewrite (sumQ_index _ (fun o => near_ratio v o (b3_meds st ++ [bj]))).
          -- rewrite hrl, h4. lra.
          -- intros o p hp. destruct (hr' o p hp) as [q1 q2].
             assert (ho : o < n) by (rewrite <- h4, <- hrl; eapply nth_error_lt; eauto).
             rewrite q2. apply (rec_ratio_ok HD hin' ho).
             apply hd3. rewrite nth_error_map, hp. auto.
        * apply greedy_but_0_snoc; auto. intros y hy. specialize (hmin y hy). unfold gain in *. lra.
  Qed.

  Lemma build3_ok k : 1 <= n -> 1 <= k ->
    oks (pammedsil_build_initialize (Lt := Lt) M k) (fun st => exists l, 1 <= l <= k /\ build3_good l st /\
      (l = k \/ stopped (b3_meds st)) /\
      b3_meds st = grow v n (seq 1 (n - 1)) (k - 1) [best_next v n []]).
  Proof.
    intros hn hk. unfold pammedsil_build_initialize.
    pose proof (proj1 HD) as HM. destruct HM as (e1 & e2 & e3).
    pose proof (build_first_ok (Lt := Lt) HD k hn) as hf.
    apply oks_inv in hf as ([x b] & -> & hb & hx & hmin & hfst). cbn [bind fst snd] in *. rewrite e1.
    assert (hbn : best_next v n [] = b) by (apply first_index with (f := fun y => tdev v n [y]); auto).
    eapply oks_bind with (P := fun data => length data = n /\
      forall o r, nth_error data o = Some r -> ia3_rec [b] o r).
    - apply mapM_seq with (R := fun o r => ia3_rec [b] o r). intros o ho.
      rewrite e3 by auto. cbn [bind oks]. apply ia3_rec_one; auto.
    - intros data [hl hd].
      apply forM_oks with (I := fun pre st => build3_good (S (length pre)) st /\
        grow v n (seq 1 (n - 1)) (k - 1) [b] = grow v n (seq 1 (n - 1)) (k - 1 - length pre) (b3_meds st)).
      + split; [|cbn [length b3_meds]; rewrite Nat.sub_0_r; reflexivity].
        constructor; cbn [b3_meds b3_data b3_loss length]; auto; try lia.
        * intros m [<-|[]]. auto.
        * constructor; auto. constructor.
        * intros i y hi hy _. simpl in hi. assert (i = 0) as -> by lia. simpl. auto.
      + intros pre l post st e hi. apply nth_split_seq in e as [el hlk]. simpl in el.
        destruct hi as [hi href]. replace (k - 1 - length pre) with (S (k - 1 - l)) in href by lia. cbn [grow] in href.
        rewrite <- el in hi. eapply oks_mono; [apply build3_step_ok; eauto; lia|].
        intros [s|s].
        * intros [hs hst]. rewrite app_length. cbn [length]. replace (length pre + 1) with l by lia. rewrite hst in href. auto.
        * intros (-> & hz & hst). rewrite hst in href. exists l. split; [lia|]. rewrite hbn. auto.
      + intros st [hi href]. rewrite seq_length in hi, href. exists (S (k - 1)). split; [lia|]. split; [auto|].
        split; [left; lia|]. rewrite Nat.sub_diag in href. rewrite hbn. auto.
  Qed.

  Lemma to_silhouette_val k (l1 l2 : Lt) : sizes n k -> (vL l1 == vL l2)%Q ->
    (vL (to_silhouette M l1) == vL (to_silhouette M l2))%Q.
  Proof.
    intros [hk [hn _]] e. unfold to_silhouette. rewrite (len_n (proj1 HD)).
    rewrite as_u32_small by auto. 
    assert (h : ~ (vL (lfrom_u32 (N.of_nat n) : Lt) == 0)%Q).
    { rewrite (vL_count). intros c. apply (proj1 (inject_Z_injective _ 0)) in c. lia. }
    rewrite !vL_sub, !vL_div, e by auto. reflexivity.
  Qed.

  (** pammedsil is BUILD followed by the swap phase: the same result as pammedsil_swap *)
  Definition same3 (s1 s2 : mst Nt Lt) : Prop :=
    m_med s1 = m_med s2 /\ m_data s1 = m_data s2 /\ (vL (m_loss s1) == vL (m_loss s2))%Q /\
    m_swaps s1 = m_swaps s2 /\ m_iter s1 = m_iter s2.

  Lemma pms_iteration_loss st1 st2 : same3 st1 st2 ->
    match pms_iteration M st1, pms_iteration M st2 with
    | Ok (Next s1), Ok (Next s2) => same3 s1 s2
    | Ok (Break s1), Ok (Break s2) => same3 s1 s2
    | Panic p1, Panic p2 => p1 = p2
    | _, _ => False
    end.
  Proof.
    intros (h1 & h2 & h4 & h5 & h6). unfold pms_iteration.
    cbn [m_med m_data m_rl m_loss m_swaps m_iter]. rewrite h1, h2.
    destruct (foldM (pms_cand M (m_med st2) (m_data st2)) (seq 0 (mlen M)) (lzero, None)) as [best|];
      [|simpl; auto].
    cbn [bind]. unfold swap_best3. cbn [m_med m_data m_rl m_loss m_swaps m_iter m_last].
    destruct (lltb lzero (fst best)).
    - destruct (snd best) as [[b j]|]; [|auto].
      destruct (do_swap3 M (m_med st2) (m_data st2) b j) as [[[m' d'] l']|]; [|simpl; auto].
      cbn [bind].
      assert (e : lleb (m_loss st1) l' = lleb (m_loss st2) l').
      { destruct (lleb (m_loss st1) l') eqn:x1; destruct (lleb (m_loss st2) l') eqn:x2; auto.
        - apply lleb_spec in x1. rewrite h4 in x1. apply lleb_spec in x1. congruence.
        - apply lleb_spec in x2. rewrite <- h4 in x2. apply lleb_spec in x2. congruence. }
      rewrite e. destruct (lleb (m_loss st2) l'); unfold same3;
        cbn [m_med m_data m_rl m_loss m_swaps m_iter]; rewrite h5, h6; auto 10.
      split; [auto|]. split; [auto|]. split; [reflexivity|]. auto.
    - unfold same3; cbn [m_med m_data m_rl m_loss m_swaps m_iter]. rewrite h5, h6; auto 10.
  Qed.

  Lemma pms_run_loss maxiter st1 st2 : same3 st1 st2 ->
    match whileM maxiter (pms_iteration M) st1, whileM maxiter (pms_iteration M) st2 with
    | Ok s1, Ok s2 => same3 s1 s2
    | Panic p1, Panic p2 => p1 = p2
    | _, _ => False
    end.
  Proof.
    revert st1 st2. induction maxiter; intros st1 st2 hs; [exact hs|].
    cbn [whileM]. pose proof (pms_iteration_loss hs) as h.
    destruct (pms_iteration M st1) as [[s1|s1]|]; destruct (pms_iteration M st2) as [[s2|s2]|];
      try contradiction; cbn [bind]; auto. apply IHmaxiter. auto.
  Qed.

  Lemma build3_initial_assignment l st : sizes n l -> 2 <= l -> build3_good l st ->
    exists loss', initial_assignment3 (Lt := Lt) M (b3_meds st) = Ok (loss', b3_data st) /\
      (vL loss' == rtot v n (b3_meds st))%Q.
  Proof.
    intros hs hl hg. pose proof (proj1 HD) as HM. destruct hg as [h1 h2 h3 h4 h5 h6 h7].
    rewrite <- h1 in hs.
    pose proof (initial_assignment3_ok (Lt := Lt) HM True hs h2 ltac:(lia)) as hi.
    apply oks_inv in hi as ([loss' data'] & e & hd & hsum & _). cbn [fst snd] in *.
    exists loss'. assert (ed : data' = b3_data st).
    { unfold initial_assignment3 in e. rewrite (check_input_ok HM hs) in e. cbn [bind] in e.
      rewrite idx_nth with (d := 0) in e by lia. cbn [bind] in e. rewrite (len_n HM) in e.
      apply bind_ok in e as (rs & e & e2). apply bind_ok in e2 as (x & e2 & e3).
      injection e3 as -> <-.
      assert (hr : oks (mapM (ia3_obj (Lt := Lt) M (b3_meds st) (nth 0 (b3_meds st) 0)) (seq 0 n))
        (fun rs => length rs = n /\ forall o y, nth_error rs o = Some y ->
           nth_error (b3_data st) o = Some (fst y))).
      { apply mapM_seq with (R := fun o (y : Reco Nt * Lt) => nth_error (b3_data st) o = Some (fst y)).
        intros o ho. destruct (nth_error_ex (b3_data st) (i := o)) as [r hr]; [lia|].
        rewrite (h5 o r hr). cbn [oks fst]. auto. }
      rewrite e in hr. cbn [oks] in hr. destruct hr as [q1 q2].
      set (z := mkReco (DP None nzero) (DP None nzero) (DP None nzero) : Reco Nt).
      apply nth_ext with (d := z) (d' := z).
      - rewrite map_length. lia.
      - intros o ho. rewrite map_length in ho. destruct (nth_error_ex rs (i := o)) as [y hy]; [auto|].
        rewrite (nth_error_nth _ _ _ (q2 o y hy)). apply nth_error_nth.
        rewrite nth_error_map, hy. auto. }
    subst data'. split; auto. eapply ratio_sum_rtot; eauto.
  Qed.

  Lemma pammedsil_ok k maxiter : sizes n k ->
    exists meds (r r' : pam_result Lt),
      pammedsil M k maxiter = Ok r /\ pammedsil_swap M meds maxiter = Ok r' /\
      same_result r r' /\
      1 <= length meds <= k /\ medoids n (length meds) meds /\ greedy_but_0 v n meds /\
      (length meds = k \/ stopped meds) /\
      oks (pammedsil_build_initialize (Lt := Lt) M k) (fun st => b3_meds st = meds) /\
      meds = grow v n (seq 1 (n - 1)) (k - 1) [best_next v n []].
  Proof.
    intros hs. assert (hk : 1 <= n /\ 1 <= k) by (destruct hs; lia). destruct hk as [hn hk].
    pose proof (proj1 HD) as HM.
    unfold pammedsil. rewrite (check_input_ok HM hs). cbn [bind].
    pose proof (build3_ok hn hk) as hb. apply oks_inv in hb as (st & -> & l & hl & hg & hst & href).
    cbn [bind oks]. pose proof hg as [h1 h2 h3 h4 h5 h6 h7].
    assert (hsl : sizes n (length (b3_meds st))).
    { rewrite h1. destruct hs as (a1 & a2 & a3). split; [lia|]. split; [auto|]. lia. }
    exists (b3_meds st).
    assert (hrest : 1 <= length (b3_meds st) <= k /\ medoids n (length (b3_meds st)) (b3_meds st) /\
      greedy_but_0 v n (b3_meds st) /\ (length (b3_meds st) = k \/ stopped (b3_meds st)) /\ b3_meds st = b3_meds st /\
      b3_meds st = grow v n (seq 1 (n - 1)) (k - 1) [best_next v n []]).
    { rewrite h1. split; [auto|]. split; [split; auto|]. auto. }
    destruct (Nat.eq_dec l 1) as [->|hl2].
    - destruct (b3_meds st) as [|x [|]] eqn:em; try discriminate h1.
      assert (hx : x < n) by (apply h2; simpl; auto).
      destruct (msc_single (Lt := Lt) HM maxiter hsl hx) as (_ & _ & ->).
      change (pammedsil_optimize M [x] (b3_data st) maxiter (b3_loss st)) with (single_medoid (Lt := Lt) M [x]).
      destruct (single_returns (Lt := Lt) HM hx) as (r & -> & _).
      exists r, r. split; [auto|]. split; [auto|]. split; [|exact hrest].
      unfold same_result. split; [auto|]. split; [auto|]. split; [auto|]. split; [auto|]. reflexivity.
    - unfold pammedsil_swap, pammedsil_optimize. 
      rewrite h1 in hsl. assert (hl3 : 2 <= l) by lia.
      destruct (build3_initial_assignment hsl hl3 hg) as (loss' & -> & hl').
      cbn [bind]. rewrite h1. replace (l =? 1) with false by (symmetry; apply Nat.eqb_neq; auto).
      assert (hsame : same3 (mkM (b3_meds st) (b3_data st) [] (b3_loss st) 0 0 0)
                            (mkM (b3_meds st) (b3_data st) [] loss' 0 0 0)).
      { unfold same3. cbn. split; [auto|]. split; [auto|].
        split; [rewrite hl'; auto|auto]. }
      pose proof (pms_run_loss maxiter hsame) as hrun.
      assert (hk2 : 2 <= length (b3_meds st)) by lia.
      destruct (ia3_data (b3_data st) h2 h3 hk2 h4 h5) as [hd1 hd2].
      assert (hzi : lltb (lzero : Lt) lzero = false).
      { destruct (lltb (lzero : Lt) lzero) eqn:e; auto. apply lltb_spec in e. lra. }
      pose proof (pammedsil_optimize_shape (Lt := Lt) HM hzi maxiter (b3_loss st) hn hk2 h2 hd1) as hos.
      unfold pammedsil_optimize in hos. rewrite h1 in hos.
      replace (l =? 1) with false in hos by (symmetry; apply Nat.eqb_neq; auto).
      destruct (whileM maxiter (pms_iteration M) (mkM (b3_meds st) (b3_data st) [] (b3_loss st) 0 0 0)) as [s1|];
        [|contradiction].
      destruct (whileM maxiter (pms_iteration M) (mkM (b3_meds st) (b3_data st) [] loss' 0 0 0)) as [s2|];
        [|contradiction].
      destruct hrun as (q1 & q2 & q4 & q5 & q6). cbn [bind oks].
      eexists. eexists. split; [reflexivity|]. split; [reflexivity|]. split; [|rewrite <- h1; exact hrest].
      unfold same_result. cbn [r_med r_assi r_iter r_swaps r_loss]. rewrite q1, q2, q5, q6.
      split; [auto|]. split; [auto|]. split; [auto|]. split; [auto|].
      apply to_silhouette_val with (k := k); auto.
  Qed.
End Exact.
