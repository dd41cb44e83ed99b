(** Term.v -- the swap algorithms stop by themselves whatever rounding does: the loss they compute
    is a function of the medoids and has to decrease from one iteration to the next.

    Assumed of the loss type are only the order of the losses which occur ([LossOrder]); sums,
    differences and quotients may be rounded in any way. *)
From Coq Require Import ZArith QArith Lqa Lia.
From Verif Require Import Base Num M_Mat M_Util M_Fasterpam M_Pam M_Silhouette M_Msc M_Pammedsil Hoare
  Spec SpecFacts Laws PamShape Reference LocalSearch FpFacts ChooseFacts PamFacts BuildFacts MscShape MscFacts MscK2.
Set Implicit Arguments.
Open Scope nat_scope.

(** The losses [okL] are ordered by [<=], and they include the sums of dissimilarities. *)
Class LossOrder (Nt Lt : Type) `{OrdLaws Nt} `{NumL Lt} `{FromN Nt Lt} := {
  okL : Lt -> Prop;
  okL_zero : okL lzero;
  okL_from : forall x, okN x -> (0 <= vN x)%Q -> okL (lfrom x);
  okL_add : forall a b, okL a -> okL b -> okL (ladd a b);
  lleb_refl : forall a, okL a -> lleb a a = true;
  lleb_trans : forall a b c, okL a -> okL b -> okL c -> lleb a b = true -> lleb b c = true -> lleb a c = true;
  lleb_total : forall a b, okL a -> okL b -> lleb a b = false -> lleb b a = true;
  lltb_lleb : forall a b, okL a -> okL b -> lltb a b = true -> lleb b a = false
}.

(** likewise the quotients of dissimilarities *)
Class RatioOrder (Nt Lt : Type) `{LossOrder Nt Lt} := {
  zero_zero_le : lleb (ladd lzero lzero) (lzero : Lt) = true
}.
Definition ratios_ok {Nt Lt : Type} `{RatioOrder Nt Lt} (n : nat) (D : nat -> nat -> Nt) : Prop :=
  forall o x y, o < n -> x < n -> y < n -> okN (D o x) -> okN (D o y) -> (0 < vals D o x)%Q -> (0 < vals D o y)%Q ->
  okL (ldiv (lfrom (D o x)) (lfrom (D o y)) : Lt).

(** ** loops which run out of states *)
Lemma whileM_stop {S} (body : S -> res (ctl S)) (I : S -> Prop) (mu : S -> nat) :
  (forall s s', I s -> body s = Ok (Next s') -> I s' /\ mu s' < mu s) ->
  forall f f' s, I s -> mu s < f -> mu s < f' -> whileM f body s = whileM f' body s.
Proof.
  intros hb. induction f as [|f IH]; intros f' s hi h1 h2; [lia|].
  destruct f' as [|f']; [lia|]. cbn [whileM]. destruct (body s) as [[s'|s']|p] eqn:e; cbn [bind]; auto.
  destruct (hb s s' hi e) as [h3 h4]. apply IH; auto; lia.
Qed.

Section Count.
  Context {Nt Lt : Type} `{HLO : LossOrder Nt Lt}.
  Variables n k : nat.
  (** the loss of a list of medoids *)
  Variable F : list nat -> Lt.
  Hypothesis F_ok : forall med, length med = k -> inr n med -> okL (F med).

  Lemma all_lists_in med : In med (all_lists n k) -> length med = k /\ inr n med.
  Proof.
    clear. revert med. induction k as [|k' IH]; intros med h; cbn [all_lists] in h.
    - destruct h as [<-|[]]. split; [auto|intros m []].
    - apply in_flat_map in h as (x & hx & h). apply in_map_iff in h as (l & <- & h).
      apply IH in h as [h1 h2]. apply in_seq in hx. split; [simpl; lia|]. intros m [<-|hm]; [lia|auto].
  Qed.

  (** the number of medoid lists of smaller loss *)
  Definition below (x : Lt) : nat := length (filter (fun m => negb (lleb x (F m))) (all_lists n k)).

  Lemma filter_le_length {A} (p q : A -> bool) l : (forall x, In x l -> p x = true -> q x = true) ->
    length (filter p l) <= length (filter q l).
  Proof.
    induction l as [|a l IH]; intros h; [auto|]. cbn [filter].
    assert (IH' := IH (fun x hx => h x (or_intror hx))). assert (ha := h a (or_introl eq_refl)).
    destruct (p a); [rewrite ha by auto; simpl; lia|]. destruct (q a); simpl; lia.
  Qed.

  Lemma filter_lt_length {A} (p q : A -> bool) l a : (forall x, In x l -> p x = true -> q x = true) ->
    In a l -> p a = false -> q a = true -> length (filter p l) < length (filter q l).
  Proof.
    intros h hin h1 h2. induction l as [|b l IH]; [destruct hin|].
    assert (hle := @filter_le_length A p q l (fun x hx => h x (or_intror hx))).
    assert (hb := h b (or_introl eq_refl)). cbn [filter]. destruct hin as [->|hin].
    - rewrite h1, h2. simpl. lia.
    - assert (IH' := IH (fun x hx => h x (or_intror hx)) hin).
      destruct (p b); [rewrite hb by auto; simpl; lia|]. destruct (q b); simpl; lia.
  Qed.

  Lemma below_lt x med : okL x -> length med = k -> inr n med -> lleb x (F med) = false ->
    below (F med) < below x.
  Proof.
    intros hx hl hi e. unfold below. pose proof (F_ok hl hi) as hm.
    apply filter_lt_length with (a := med).
    - intros m hin h. apply all_lists_in in hin as [h1 h2]. pose proof (F_ok h1 h2) as h3.
      apply negb_true_iff in h. apply negb_true_iff. destruct (lleb x (F m)) eqn:e1; [|auto].
      rewrite <- h. symmetry. apply lleb_trans with x; auto. apply lleb_total; auto.
    - apply in_all_lists; auto.
    - rewrite lleb_refl by auto. auto.
    - rewrite e. auto.
  Qed.

  Lemma below_bound med : length med = k -> inr n med -> below (F med) < n ^ k.
  Proof.
    intros hl hi. rewrite <- length_all_lists. unfold below. pose proof (F_ok hl hi) as hm.
    replace (length (all_lists n k)) with (length (filter (fun _ => true) (all_lists n k))).
    2:{ f_equal. clear. induction (all_lists n k) as [|a l IH]; cbn; congruence. }
    apply filter_lt_length with (a := med); auto.
    - apply in_all_lists; auto.
    - rewrite lleb_refl by auto. auto.
  Qed.

  (** a loop which only goes on with a smaller loss *)
  Lemma loop_stops_some {S} (body : S -> res (ctl S)) (I : S -> Prop) (lossof : S -> Lt) :
    (forall s, I s -> exists med, length med = k /\ inr n med /\ lossof s = F med) ->
    (forall s s', I s -> body s = Ok (Next s') -> I s' /\ lleb (lossof s) (lossof s') = false) ->
    forall f f' s, I s -> n ^ k <= f -> n ^ k <= f' -> whileM f body s = whileM f' body s.
  Proof.
    intros h1 h2 f f' s hi hf hf'.
    assert (hb : below (lossof s) < n ^ k).
    { destruct (h1 s hi) as (med & a1 & a2 & ->). apply below_bound; auto. }
    apply whileM_stop with (I := I) (mu := fun s => below (lossof s)); [|exact hi|lia|lia].
    intros s0 s1 h0 e. destruct (h2 s0 s1 h0 e) as [h3 h4]. split; [auto|].
    destruct (h1 s0 h0) as (m0 & a1 & a2 & a3). destruct (h1 s1 h3) as (m1 & b1 & b2 & b3).
    rewrite b3 in *. apply below_lt; auto. rewrite a3. auto.
  Qed.

  Lemma loop_stops {S} (body : S -> res (ctl S)) (I : S -> Prop) (medof : S -> list nat) (lossof : S -> Lt) :
    (forall s, I s -> length (medof s) = k /\ inr n (medof s) /\ lossof s = F (medof s)) ->
    (forall s s', I s -> body s = Ok (Next s') -> I s' /\ lleb (lossof s) (lossof s') = false) ->
    forall f f' s, I s -> n ^ k <= f -> n ^ k <= f' -> whileM f body s = whileM f' body s.
  Proof. intros h1 h2. apply loop_stops_some with lossof; auto. intros s hs. exists (medof s). auto. Qed.
End Count.

Lemma reduce_ok {Nt Lt : Type} `{HLO : LossOrder Nt Lt} (l : list Lt) x :
  (forall y, In y l -> okL y) -> reduce ladd l = Some x -> okL x.
Proof.
  destruct l as [|y l]; cbn [reduce]; intros h e; [discriminate|]. injection e as <-.
  assert (hy := h y (or_introl eq_refl)). assert (hl := fun z hz => h z (or_intror hz)). clear h.
  revert y hy. induction l as [|z l IH]; intros y hy; cbn [fold_left]; [auto|].
  apply IH; [intros w hw; apply hl; simpl; auto|]. apply okL_add; [exact hy|apply hl; simpl; auto].
Qed.

Section Stop.
  Context {Nt Lt : Type} `{HLO : LossOrder Nt Lt}.
  Variable M : Mat Nt.
  Variable n : nat.
  Variable D : nat -> nat -> Nt.
  Hypothesis HD : diss_matrix M n D.
  Local Notation v := (vals D).
  Let HM : is_matrix M n D := proj1 HD.
  Let Hdg : Dg n D := proj2 (emb_vals HD).
  Let Hemb : Emb n D v := proj1 (emb_vals HD).

  (** equal dissimilarities of one object are converted to the same loss *)
  Definition same_losses : Prop := forall o x y, o < n -> x < n -> y < n ->
    (v o x == v o y)%Q -> lfrom (D o x) = (lfrom (D o y) : Lt).
  Hypothesis Hsame : same_losses.

  Lemma ok_entry o x : o < n -> x < n -> okL (lfrom (D o x) : Lt).
  Proof. intros ho hx. destruct (proj2 (proj2 HD) o x ho hx). apply okL_from; auto. Qed.

  (** ** the total deviation as computed is a function of the medoids *)
  Definition tdF (med : list nat) : Lt :=
    match initial_assignment M med with Ok (l, _) => l | Panic _ => lzero end.

  Lemma near_entry med data o r : inr n med -> data_ok n D med data -> nth_error data o = Some r ->
    exists a, a < length med /\ dd (near r) = D o (nth a med 0) /\
      forall c, c < length med -> (v o (nth a med 0%nat) <= v o (nth c med 0%nat))%Q.
  Proof.
    intros hin [hl hd] hr. destruct (hd o r hr) as (a & b & ha & _ & _ & [_ da] & _ & hm).
    exists a. split; [auto|]. split; [apply (da Hdg)|]. apply (hm Hdg v Hemb).
  Qed.

  Lemma near_sum_unique med d1 d2 : inr n med -> data_ok n D med d1 -> data_ok n D med d2 ->
    near_sum (Lt := Lt) d1 = near_sum d2.
  Proof.
    intros hin h1 h2. unfold near_sum. f_equal. apply nth_ext with (d := lzero) (d' := lzero).
    { rewrite !map_length. destruct h1, h2. congruence. }
    intros o ho. rewrite map_length in ho. destruct (nth_error_ex d1 (i := o)) as [r1 e1]; [auto|].
    destruct (nth_error_ex d2 (i := o)) as [r2 e2]; [destruct h1, h2; lia|].
    rewrite (nth_error_nth (map _ d1) o lzero (x := lfrom (dd (near r1)))) by (rewrite nth_error_map, e1; auto).
    rewrite (nth_error_nth (map _ d2) o lzero (x := lfrom (dd (near r2)))) by (rewrite nth_error_map, e2; auto).
    destruct (near_entry o hin h1 e1) as (a & ha & -> & ma). destruct (near_entry o hin h2 e2) as (b & hb & -> & mb).
    assert (hon : o < n) by (destruct h1; lia).
    apply Hsame; [auto|apply inr_nth; auto|apply inr_nth; auto|]. specialize (ma b hb). specialize (mb a ha). lra.
  Qed.

  Lemma near_sum_ok med data x : inr n med -> data_ok n D med data -> near_sum data = Some (x : Lt) -> okL x.
  Proof.
    intros hin hd. apply reduce_ok. intros y hy. apply in_map_iff in hy as (r & <- & hr).
    apply In_nth_error in hr as [o hr]. destruct (near_entry o hin hd hr) as (a & ha & -> & _).
    apply ok_entry; [apply nth_error_lt in hr; destruct hd; lia|apply inr_nth; auto].
  Qed.

  Lemma tdF_data med : sizes n (length med) -> inr n med -> 2 <= length med ->
    exists data, data_ok n D med data /\ near_sum data = Some (tdF med).
  Proof.
    intros hs hin hk. pose proof (initial_assignment_ok (Lt := Lt) HM hs hin hk) as h.
    apply oks_inv in h as ([loss data] & e & hd & hsum & _). unfold tdF. rewrite e. eauto.
  Qed.

  Lemma tdF_ok med : sizes n (length med) -> inr n med -> 2 <= length med -> okL (tdF med).
  Proof.
    intros hs hin hk. destruct (tdF_data hs hin hk) as (data & hd & e). eapply near_sum_ok; eauto.
  Qed.

  Lemma tdF_unique med data x : sizes n (length med) -> inr n med -> 2 <= length med ->
    data_ok n D med data -> near_sum data = Some x -> x = tdF med.
  Proof.
    intros hs hin hk hd e. destruct (tdF_data hs hin hk) as (data' & hd' & e').
    rewrite (near_sum_unique hin hd hd') in e. congruence.
  Qed.

  Hypothesis Hzero : lfrom (nzero : Nt) = (lzero : Lt).

  (** fasterpam *)
  Definition fp_known (k : nat) (st : fpst Nt Lt) : Prop :=
    fp_inv n D k st /\ near_sum (fp_data st) = Some (fp_loss st).

  Lemma fp_iteration_next order k st : 1 <= n -> 1 <= k -> (forall j, In j order -> j < n) -> fp_known k st ->
    oks (fp_iteration M order st) (fun c => match c with
      | Next s => fp_known k s /\ lleb (fp_loss st) (fp_loss s) = false
      | Break s => fp_known k s end).
  Proof.
    intros hn hk ho [hi hs]. unfold fp_iteration.
    eapply oks_bind.
    - apply forM_inv with (I := fp_known k).
      + split; [destruct hi; constructor; auto|auto].
      + intros j s hj [his hss]. pose proof (ho j hj) as hjn.
        eapply oks_mono; [apply (fp_cand_ok HM) with (k := k); auto|].
        intros [s'|s'] hc; pose proof (cand_step_inv HM hn hk hjn his hc) as hc'; (split; [exact hc'|]);
          inversion hc as [|r a e1 e2 e3 e4|ch b e1 e2 e3|r a ch b data' rl' loss' e1 e2 e3 e4 e5 e6 e7 e8 e9];
          subst; auto.
        destruct his as [i1 i2 i3 i4].
        pose proof (do_swap_ok (Lt := Lt) HM hn i2 hjn e7 i3) as hs1.
        apply oks_elim with (2 := e8) in hs1. destruct hs1 as (_ & s1 & s2 & s3 & _).
        cbn [fp_data fp_loss]. rewrite <- s2. symmetry. apply near_sum0_near_sum; auto.
        intros r0 hr0. rewrite (s3 r0 hr0). auto.
    - intros s hks. destruct (_ =? _); cbn [orb oks]; [auto|].
      destruct (lleb (fp_loss st) (fp_loss s)) eqn:e; cbn [oks]; auto.
  Qed.

  Lemma fasterpam_stops order med f f' : sizes n (length med) -> inr n med -> (forall j, In j order -> j < n) ->
    n ^ length med <= f -> n ^ length med <= f' ->
    fasterpam_order (Lt := Lt) M order med f = fasterpam_order M order med f'.
  Proof.
    intros hs hin ho hf hf'. unfold fasterpam_order. destruct (Nat.eqb_spec (length med) 1) as [|e1]; [auto|].
    assert (hk : 2 <= length med) by (destruct hs; lia). assert (hn : 1 <= n) by (destruct hs; lia).
    pose proof (initial_assignment_ok (Lt := Lt) HM hs hin hk) as h.
    apply oks_inv in h as ([loss data] & -> & hd & hsum & _). cbn [bind fst snd] in *.
    assert (hrl : oks (update_removal_loss data (repeat (lzero : Lt) (length med)))
                      (fun rl => length rl = length med)).
    { apply update_removal_loss_len with (n := n) (D := D); auto. apply repeat_length. }
    apply oks_inv in hrl as (rl & -> & hrl). cbn [bind].
    f_equal. apply (@loop_stops _ _ _ _ _ _ _ n (length med) tdF) with (I := fp_known (length med))
      (medof := fun st => fp_med st) (lossof := fun st => fp_loss st); auto.
    - intros m h1 h2. apply tdF_ok; auto; rewrite h1; auto.
    - intros st [[i1 i2 i3 i4] hss]. split; [auto|]. split; [auto|].
      apply tdF_unique with (fp_data st); auto; rewrite i1; auto.
    - intros st st' hst e. pose proof (@fp_iteration_next order (length med) st hn ltac:(lia) ho hst) as h.
      rewrite e in h. exact h.
    - split; [constructor; auto|auto].
  Qed.

  (** fastpam1, pam *)
  Definition p_known (k : nat) (st : pst Nt Lt) : Prop :=
    p_inv n D k st /\ near_sum (p_data st) = Some (p_loss st).

  Let Hirr : lltb (lzero : Lt) lzero = false.
  Proof.
    destruct (lltb (lzero : Lt) lzero) eqn:e; [|auto]. apply lltb_lleb in e; try apply okL_zero.
    rewrite lleb_refl in e by apply okL_zero. discriminate.
  Qed.

  (** the loss before does not matter *)
  Lemma swap_best_next k st rl best s : 1 <= n -> p_inv n D k st -> best_valid n k best ->
    swap_best M st rl best = Ok (Next s) ->
    p_known k s /\ p_rl s = rl /\ lleb (p_loss st) (p_loss s) = false.
  Proof.
    intros hn hi hb e. pose proof (swap_best_shape HM Hirr rl best hn hi hb) as hsh. rewrite e in hsh.
    cbn [oks] in hsh. destruct hsh as (g1 & g2 & _). unfold swap_best in e.
    destruct (lltb (fst best) lzero); [|discriminate]. unfold best_valid in hb.
    destruct (snd best) as [[b j]|]; [|discriminate]. destruct hb as [hb hj]. destruct hi as [i1 i2 i3].
    assert (hb' : b < length (p_med st)) by lia.
    pose proof (do_swap_ok (Lt := Lt) HM hn i2 hj hb' i3) as hd.
    apply oks_inv in hd as ([[med' data'] loss'] & ed & -> & s1 & s2 & s3 & _).
    rewrite ed in e. cbn [bind] in e. destruct (lleb (p_loss st) loss') eqn:el; [discriminate|].
    injection e as <-. split; [split; [exact g1|]|split; [exact g2|exact el]].
    cbn [p_data p_loss]. rewrite <- s2. symmetry. apply near_sum0_near_sum; auto.
    intros r0 hr0. rewrite (s3 r0 hr0). auto.
  Qed.

  Lemma fastpam1_next k st s : 1 <= n -> 1 <= k -> p_inv n D k st -> length (p_rl st) = k ->
    fastpam1_iteration M st = Ok (Next s) ->
    (p_known k s /\ length (p_rl s) = k) /\ lleb (p_loss st) (p_loss s) = false.
  Proof.
    intros hn hk hi hl. unfold fastpam1_iteration. cbn [p_med p_data p_rl p_loss p_swaps p_iter].
    set (st1 := mkP (p_med st) (p_data st) (p_rl st) (p_loss st) (p_swaps st) (S (p_iter st))).
    assert (hi1 : p_inv n D k st1) by (destruct hi; constructor; auto). pose proof hi as [i1 i2 i3].
    assert (hu : oks (update_removal_loss (p_data st) (p_rl st)) (fun rl => length rl = length (p_med st))).
    { apply update_removal_loss_len with (n := n) (D := D); auto. congruence. }
    apply oks_inv in hu as (rl & -> & hrl). cbn [bind].
    assert (hf : oks (foldM (fastpam1_cand M (p_med st) (p_data st) rl) (seq 0 (mlen M)) (lzero, None)) (best_valid n k)).
    { apply foldM_inv; [reflexivity|]. intros j best hj hb. apply in_seq in hj.
      rewrite (len_n HM) in hj. apply (@fastpam1_cand_shape _ _ _ _ _ M n D HM k st1); auto; lia. }
    apply oks_inv in hf as (best & -> & hb). cbn [bind]. intros e.
    destruct (@swap_best_next k st1 rl best s hn hi1 hb e) as (a1 & a2 & a3).
    split; [split; [exact a1|congruence]|exact a3].
  Qed.

  Lemma pam_next k st s : 1 <= n -> p_inv n D k st -> pam_iteration M st = Ok (Next s) ->
    p_known k s /\ lleb (p_loss st) (p_loss s) = false.
  Proof.
    intros hn hi. unfold pam_iteration. cbn [p_med p_data p_rl p_loss p_swaps p_iter].
    set (st1 := mkP (p_med st) (p_data st) (p_rl st) (p_loss st) (p_swaps st) (S (p_iter st))).
    assert (hi1 : p_inv n D k st1) by (destruct hi; constructor; auto).
    assert (hf : oks (foldM (pam_cand M (p_med st) (p_data st)) (seq 0 (mlen M)) (lzero, None)) (best_valid n k)).
    { apply foldM_inv; [reflexivity|]. intros j best hj hb. apply in_seq in hj.
      rewrite (len_n HM) in hj. apply (@pam_cand_shape _ _ _ _ _ M n D HM k st1); auto; lia. }
    apply oks_inv in hf as (best & -> & hb). cbn [bind]. intros e.
    destruct (@swap_best_next k st1 (p_rl st) best s hn hi1 hb e) as (a1 & a2 & a3). auto.
  Qed.

  Lemma tdF_known k st : 2 <= k -> sizes n k -> p_known k st ->
    length (p_med st) = k /\ inr n (p_med st) /\ p_loss st = tdF (p_med st).
  Proof.
    intros hk hs [[i1 i2 i3] hss]. split; [auto|]. split; [auto|].
    apply tdF_unique with (p_data st); auto; rewrite i1; auto.
  Qed.

  Lemma fastpam1_stops med f f' : sizes n (length med) -> inr n med ->
    n ^ length med <= f -> n ^ length med <= f' -> fastpam1 (Lt := Lt) M med f = fastpam1 M med f'.
  Proof.
    intros hs hin hf hf'. unfold fastpam1. destruct (Nat.eqb_spec (length med) 1) as [|e1]; [auto|].
    assert (hk : 2 <= length med) by (destruct hs; lia). assert (hn : 1 <= n) by (destruct hs; lia).
    pose proof (initial_assignment_ok (Lt := Lt) HM hs hin hk) as h.
    apply oks_inv in h as ([loss data] & -> & hd & hsum & _). cbn [bind fst snd] in *.
    f_equal. apply (@loop_stops _ _ _ _ _ _ _ n (length med) tdF)
      with (I := fun st => p_known (length med) st /\ length (p_rl st) = length med)
      (medof := fun st => p_med st) (lossof := fun st => p_loss st); auto.
    - intros m h1 h2. apply tdF_ok; auto; rewrite h1; auto.
    - intros st [hst _]. apply tdF_known; auto.
    - intros st st' [hst hl] e. apply fastpam1_next with (k := length med) in e; auto; [lia|apply hst].
    - split; [split; [constructor; auto|auto]|apply repeat_length].
  Qed.

  (** the swap phase of pam, started with any records that fit the medoids *)
  Lemma pam_optimize_stops med data loss f f' : sizes n (length med) -> inr n med -> 2 <= length med ->
    data_ok n D med data -> near_sum data = Some loss ->
    n ^ length med <= f -> n ^ length med <= f' ->
    pam_optimize (Lt := Lt) M med data f loss = pam_optimize M med data f' loss.
  Proof.
    intros hs hin hk hd hsum hf hf'. assert (hn : 1 <= n) by (destruct hs; lia).
    unfold pam_optimize. destruct (length med =? 1); [auto|].
    f_equal. apply (@loop_stops _ _ _ _ _ _ _ n (length med) tdF) with (I := p_known (length med))
      (medof := fun st => p_med st) (lossof := fun st => p_loss st); auto.
    - intros m h1 h2. apply tdF_ok; auto; rewrite h1; auto.
    - intros st hst. apply tdF_known; auto.
    - intros st st' hst e. apply pam_next with (k := length med) in e; auto. apply hst.
    - split; [constructor; auto|auto].
  Qed.

  (** after BUILD: the accumulated loss need not be the one recomputed from the medoids, so that one
      more iteration may be needed *)
  Lemma pam_optimize_stops1 med data loss f f' : sizes n (length med) -> inr n med -> 2 <= length med ->
    data_ok n D med data -> S (n ^ length med) <= f -> S (n ^ length med) <= f' ->
    pam_optimize (Lt := Lt) M med data f loss = pam_optimize M med data f' loss.
  Proof.
    intros hs hin hk hd hf hf'. assert (hn : 1 <= n) by (destruct hs; lia).
    unfold pam_optimize. destruct (length med =? 1); [auto|].
    f_equal. destruct f as [|f]; [lia|]. destruct f' as [|f']; [lia|]. cbn [whileM].
    set (st := mkP med data [] loss 0 0). destruct (pam_iteration M st) as [[s|s]|p] eqn:e; cbn [bind]; auto.
    apply pam_next with (k := length med) in e; auto; [|constructor; auto]. destruct e as [hks _].
    apply (@loop_stops _ _ _ _ _ _ _ n (length med) tdF) with (I := p_known (length med))
      (medof := fun st => p_med st) (lossof := fun st => p_loss st); auto; try lia.
    - intros m h1 h2. apply tdF_ok; auto; rewrite h1; auto.
    - intros st' hst. apply tdF_known; auto.
    - intros st' st'' hst e. apply pam_next with (k := length med) in e; auto. apply hst.
  Qed.

  Lemma pam_stops k f f' : sizes n k -> S (n ^ k) <= f -> S (n ^ k) <= f' -> pam (Lt := Lt) M k f = pam M k f'.
  Proof.
    intros hs hf hf'. assert (hk : 1 <= n /\ 1 <= k) by (destruct hs; lia). destruct hk as [hn hk].
    unfold pam. rewrite (check_input_ok HM hs). cbn [bind].
    pose proof (build_shape (Lt := Lt) HM hn hk) as hb. apply oks_inv in hb as (st & -> & l & hl & [h1 h2 h3 h4]).
    cbn [bind]. destruct (Nat.eq_dec l 1) as [->|hl2].
    - unfold pam_optimize. rewrite h1. auto.
    - assert (hp : n ^ length (b_meds st) <= n ^ k) by (rewrite h1; apply Nat.pow_le_mono_r; lia).
      apply pam_optimize_stops1; auto; try lia; rewrite ?h1; try lia.
      + destruct hs as [q1 [q2 q3]]. split; [lia|]. split; [auto|]. lia.
      + split; auto. intros o r hr. destruct (h4 o r hr) as [[h _]|[_ h]]; [lia|]. rewrite h1. auto.
  Qed.

  Lemma pam_swap_stops med f f' : sizes n (length med) -> inr n med ->
    n ^ length med <= f -> n ^ length med <= f' -> pam_swap (Lt := Lt) M med f = pam_swap M med f'.
  Proof.
    intros hs hin hf hf'. unfold pam_swap.
    destruct (Nat.eqb_spec (length med) 1) as [e1|e1].
    - destruct (initial_assignment M med) as [[loss data]|p]; cbn [bind]; [|auto].
      unfold pam_optimize. rewrite e1. auto.
    - assert (hk : 2 <= length med) by (destruct hs; lia).
      pose proof (initial_assignment_ok (Lt := Lt) HM hs hin hk) as h.
      apply oks_inv in h as ([loss data] & -> & hd & hsum & _). cbn [bind fst snd] in *.
      apply pam_optimize_stops; auto.
  Qed.
End Stop.
