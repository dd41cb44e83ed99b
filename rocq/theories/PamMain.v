(** PamMain.v -- the other algorithms of the PAM family, collected for the property files. *)
From Coq Require Import ZArith QArith Lqa Lia Permutation.
From Verif Require Import Base Num M_Mat M_Util M_Fasterpam M_Pam M_Alternating M_ParFasterpam Hoare Spec SpecFacts
  Laws PamShape PamExact Reference LocalSearch FpFacts ChooseFacts PamFacts BuildFacts AltFacts ParFacts FpMain.
Set Implicit Arguments.
Open Scope nat_scope.

Section Shape.
  Context {Nt Lt : Type} `{HNN : NumN Nt} `{HNL : NumL Lt} `{HFN : FromN Nt Lt}.
  Variable M : Mat Nt.
  Variable n : nat.
  Variable D : nat -> nat -> Nt.

  (** ** k = 1: all variants coincide *)
  Lemma initial_single (HM : is_matrix M n D) x : sizes n 1 -> x < n ->
    exists p, initial_assignment (Lt := Lt) M [x] = Ok p.
  Proof.
    intros hs hx. unfold initial_assignment. cbn [length]. rewrite (check_input_ok HM hs). cbn [bind idx nth_error].
    rewrite (len_n HM).
    assert (hm : oks (mapM (ia_obj (Lt := Lt) M [x] x) (seq 0 n))
                     (fun rs => length rs = n /\ forall (o : nat) (y : Rec Nt * Lt), nth_error rs o = Some y -> True)).
    { apply mapM_seq with (R := fun _ (_ : Rec Nt * Lt) => True). intros o ho.
      unfold ia_obj. rewrite (get_ok HM) by auto. exact I. }
    apply oks_inv in hm as (rs & -> & hrl & _). cbn [bind].
    destruct (reduce_some ladd (l := map snd rs)) as [y ->]; [|cbn; eauto].
    destruct rs; simpl in *; [lia|congruence].
  Qed.

  Lemma single_all (HM : is_matrix M n D) x maxiter order orc : sizes n 1 -> x < n ->
    fasterpam (Lt := Lt) M [x] maxiter = single_medoid M [x] /\
    rand_fasterpam (Lt := Lt) M order [x] maxiter = single_medoid M [x] /\
    par_fasterpam (Lt := Lt) M orc order [x] maxiter = single_medoid M [x] /\
    fastpam1 (Lt := Lt) M [x] maxiter = single_medoid M [x] /\
    pam_swap (Lt := Lt) M [x] maxiter = single_medoid M [x].
  Proof.
    intros hs hx. repeat split. unfold pam_swap.
    destruct (initial_single HM hs hx) as ([l d] & ->). reflexivity.
  Qed.

  Lemma pam_swap_shape (HM : is_matrix M n D) (zero_irrefl : lltb (lzero : Lt) lzero = false) med maxiter :
    sizes n (length med) -> inr n med -> 2 <= length med ->
    oks (pam_swap (Lt := Lt) M med maxiter) (res_shape n (length med) maxiter).
  Proof.
    intros hs hin hk. assert (hn : 1 <= n) by (destruct hs; lia). unfold pam_swap.
    pose proof (initial_assignment_ok (Lt := Lt) HM hs hin hk) as h.
    apply oks_inv in h as ([loss data] & -> & hd & _). cbn [bind fst snd] in *.
    apply pam_optimize_shape with (D := D); auto.
  Qed.

  Definition returns (m : res (pam_result Lt)) (k : nat) : Prop :=
    exists r, m = Ok r /\ length (r_med r) = k /\ (forall x, In x (r_med r) -> x < n) /\
      length (r_assi r) = n /\ forall o, o < n -> nth o (r_assi r) 0 < k.

  Lemma single_returns (HM : is_matrix M n D) x : x < n -> returns (single_medoid M [x]) 1.
  Proof.
    intros hx. pose proof (single_medoid_shape (Lt := Lt) HM (med := [x]) eq_refl) as h.
    assert (hin : inr n [x]) by (intros m [<-|[]]; auto). specialize (h hin).
    apply oks_inv in h as (r & e & h). exists r. split; [auto|].
    destruct h as (h1 & h2 & best & h3 & h4 & h5).
    rewrite h1, h4. split; [auto|]. split; [intros m [<-|[]]; auto|]. split; [apply repeat_length|].
    intros o ho. rewrite nth_repeat. lia.
  Qed.

  Lemma res_shape_returns m k maxiter : oks m (res_shape n k maxiter) -> returns m k.
  Proof.
    intros h. apply oks_inv in h as (r & e & h1 & h2 & h3 & h4 & _). exists r.
    split; [auto|]. split; [auto|]. split; [auto|]. split; [auto|].
    intros o ho. apply h4. apply nth_In. lia.
  Qed.

  Lemma pam_family_returns (HM : is_matrix M n D) (zero_irrefl : lltb (lzero : Lt) lzero = false)
      med maxiter order orc :
    sizes n (length med) -> inr n med -> (forall j, In j order -> j < n) ->
    returns (fasterpam M med maxiter) (length med) /\
    returns (rand_fasterpam M order med maxiter) (length med) /\
    returns (par_fasterpam M orc order med maxiter) (length med) /\
    returns (fastpam1 M med maxiter) (length med) /\
    returns (pam_swap M med maxiter) (length med) /\
    returns (alternating M med maxiter) (length med).
  Proof.
    intros hs hin ho.
    assert (halt : returns (alternating M med maxiter) (length med)).
    { pose proof (alternating_shape (Lt := Lt) HM maxiter hs hin) as h.
      apply oks_inv in h as (r & e & h1 & h2 & h3 & h4 & _). exists r. auto 10. }
    destruct (Nat.eq_dec (length med) 1) as [e1|e1].
    - destruct (length_one med e1) as [x ->]. assert (hx : x < n) by (apply hin; simpl; auto).
      destruct (single_all HM maxiter order orc hs hx) as (-> & -> & -> & -> & ->).
      pose proof (single_returns HM hx). simpl length. auto 10.
    - assert (hk : 2 <= length med) by (destruct hs; lia).
      assert (hord : forall order, (forall j, In j order -> j < n) ->
                returns (rand_fasterpam M order med maxiter) (length med)).
      { intros ord ho'. pose proof (fasterpam_order_shape (Lt := Lt) HM ord maxiter hs hin hk ho') as h.
        apply oks_inv in h as (r & e & st & [i1 i2 i3 i4] & -> & _). eexists. split; [exact e|].
        cbn [r_med r_assi]. split; [auto|]. split; [auto|].
        destruct (assignment_of_shape i1 i3) as [h1 h2]. split; [auto|].
        intros o hoo. apply h2. apply nth_In. lia. }
      split; [|split; [auto|split; [|split; [|split; [|auto]]]]].
      + unfold fasterpam. rewrite (len_n HM). apply hord. intros j hj. apply in_seq in hj. lia.
      + pose proof (par_fasterpam_shape (Lt := Lt) HM orc order maxiter hs hin hk ho) as h.
        apply oks_inv in h as (r & e & h1 & h2 & h3 & h4 & _). exists r. auto 10.
      + apply res_shape_returns with (maxiter := maxiter). apply fastpam1_shape with (D := D); auto.
      + apply res_shape_returns with (maxiter := maxiter). apply pam_swap_shape; auto.
  Qed.

  (** ** the documented panics *)
  Lemma check_input_valid k : check_input M k = Ok tt ->
    msquare M = Ok true /\ sizes (mlen M) k.
  Proof.
    unfold check_input. intros h. apply bind_ok in h as (sq & e & h). rewrite e.
    apply bind_ok in h as ([] & e1 & h). apply bind_ok in h as ([] & e2 & h).
    apply bind_ok in h as ([] & e3 & h). unfold assertb in *.
    destruct sq; [|discriminate]. split; [auto|].
    destruct (N.leb_spec (N.of_nat (mlen M)) u32_max); [|discriminate].
    destruct (andb (0 <? k) (N.of_nat k <? u32_max)%N) eqn:e4; [|discriminate].
    destruct (Nat.leb_spec k (mlen M)); [|discriminate].
    apply andb_true_iff in e4 as [e4 e5]. apply Nat.ltb_lt in e4. apply N.ltb_lt in e5.
    unfold u32_max in *. split; [lia|]. auto.
  Qed.

  Lemma initial_assignment_valid med p : initial_assignment (Lt := Lt) M med = Ok p ->
    msquare M = Ok true /\ sizes (mlen M) (length med).
  Proof. intros h. apply bind_ok in h as ([] & e & _). apply check_input_valid. auto. Qed.
  Lemma par_initial_assignment_valid t med p : par_initial_assignment (Lt := Lt) M t med = Ok p ->
    msquare M = Ok true /\ sizes (mlen M) (length med).
  Proof. intros h. apply bind_ok in h as ([] & e & _). apply check_input_valid. auto. Qed.
  Lemma assign_nearest_valid med p : assign_nearest (Lt := Lt) M med = Ok p ->
    msquare M = Ok true /\ sizes (mlen M) (length med).
  Proof. intros h. apply bind_ok in h as ([] & e & _). apply check_input_valid. auto. Qed.

  Lemma pam_family_valid med maxiter order orc (r : pam_result Lt) :
    (length med <> 1 /\
      (fasterpam M med maxiter = Ok r \/ rand_fasterpam M order med maxiter = Ok r \/
       par_fasterpam M orc order med maxiter = Ok r \/ fastpam1 M med maxiter = Ok r)) \/
    pam_swap M med maxiter = Ok r \/ alternating M med maxiter = Ok r ->
    msquare M = Ok true /\ sizes (mlen M) (length med).
  Proof.
    intros [[hk h]|[h|h]].
    - assert (e1 : (length med =? 1) = false) by (apply Nat.eqb_neq; auto).
      unfold fasterpam, rand_fasterpam, fasterpam_order, par_fasterpam, fastpam1 in h.
      rewrite e1 in h.
      destruct h as [h|[h|[h|h]]]; apply bind_ok in h as (p & e & _).
      + apply (initial_assignment_valid _ e).
      + apply (initial_assignment_valid _ e).
      + apply (par_initial_assignment_valid _ _ e).
      + apply (initial_assignment_valid _ e).
    - apply bind_ok in h as (p & e & _). apply (initial_assignment_valid _ e).
    - apply bind_ok in h as (p & e & _). apply (assign_nearest_valid _ e).
  Qed.

  (** [check_input] stops with [p] *)
  Definition rejects (k : nat) (p : panic) : Prop :=
    (p = P_not_square /\ msquare M = Ok false) \/
    (p = P_n_too_large /\ msquare M = Ok true /\ (u32_max < N.of_nat (mlen M))%N) \/
    (p = P_invalid_k /\ msquare M = Ok true /\ (N.of_nat (mlen M) <= u32_max)%N /\
       (k = 0 \/ (u32_max <= N.of_nat k)%N)) \/
    (p = P_k_gt_n /\ msquare M = Ok true /\ (N.of_nat (mlen M) <= u32_max)%N /\
       mlen M < k /\ (N.of_nat k < u32_max)%N).

  Lemma check_rejects k p : rejects k p -> check_input M k = Panic p.
  Proof.
    unfold check_input.
    intros [(-> & ->)|[(-> & -> & h)|[(-> & -> & h & h1)|(-> & -> & h & h1 & h2)]]]; cbn [bind assertb].
    - reflexivity.
    - apply N.leb_gt in h. rewrite h. reflexivity.
    - apply N.leb_le in h. rewrite h. cbn [bind assertb].
      replace (andb (0 <? k) (N.of_nat k <? u32_max)%N) with false; [reflexivity|]. symmetry.
      destruct h1 as [->|h1]; [reflexivity|]. apply N.ltb_ge in h1. rewrite h1. apply Bool.andb_false_r.
    - apply N.leb_le in h. rewrite h. cbn [bind assertb].
      replace (0 <? k) with true by (symmetry; apply Nat.ltb_lt; lia).
      apply N.ltb_lt in h2. rewrite h2. cbn [bind assertb andb].
      replace (k <=? mlen M) with false by (symmetry; apply Nat.leb_gt; lia). reflexivity.
  Qed.

  Lemma pam_family_rejects med maxiter order orc p : rejects (length med) p ->
    (length med <> 1 ->
       fasterpam (Lt := Lt) M med maxiter = Panic p /\
       rand_fasterpam (Lt := Lt) M order med maxiter = Panic p /\
       par_fasterpam (Lt := Lt) M orc order med maxiter = Panic p /\
       fastpam1 (Lt := Lt) M med maxiter = Panic p) /\
    pam_swap (Lt := Lt) M med maxiter = Panic p /\ alternating (Lt := Lt) M med maxiter = Panic p.
  Proof.
    intros h. apply check_rejects in h. split.
    - intros hk. apply Nat.eqb_neq in hk.
      unfold fasterpam, rand_fasterpam, fasterpam_order, par_fasterpam, fastpam1, initial_assignment,
        par_initial_assignment. rewrite hk, h. auto.
    - unfold pam_swap, alternating, initial_assignment, assign_nearest. rewrite h. auto.
  Qed.

  Lemma pam_rejects k maxiter p : rejects k p ->
    pam (Lt := Lt) M k maxiter = Panic p /\ pam_build (Lt := Lt) M k = Panic p.
  Proof. intros h. apply check_rejects in h. unfold pam, pam_build. rewrite h. auto. Qed.

  Lemma pam_valid k maxiter :
    ((exists r, pam (Lt := Lt) M k maxiter = Ok r) \/ (exists r, pam_build (Lt := Lt) M k = Ok r)) ->
    msquare M = Ok true /\ sizes (mlen M) k.
  Proof.
    intros [[r h]|[r h]]; apply bind_ok in h as ([] & e & _); apply check_input_valid; auto.
  Qed.
End Shape.

Section Exact.
  Context {Nt Lt : Type} `{HLL : LossLaws Nt Lt}.
  Variable M : Mat Nt.
  Variable n : nat.
  Variable D : nat -> nat -> Nt.
  Hypothesis HD : diss_matrix M n D.
  Local Notation v := (vals D).

  (** everything about a steepest descent run, for every k *)
  Record sd_all (med : list nat) (maxiter : nat) (r : pam_result Lt) : Prop := {
    sa_medoids : medoids n (length med) (r_med r);
    sa_assi_len : length (r_assi r) = n;
    sa_nearest : forall o, o < n -> nearest v o (r_med r) (nth o (r_assi r) 0);
    sa_own : 2 <= length med -> forall c, c < length med -> nth (nth c (r_med r) 0) (r_assi r) 0 = c;
    sa_loss : 2 <= length med \/ symmetric n v -> (vL (r_loss r) == tdev v n (r_med r))%Q;
    sa_obj : 2 <= length med \/ symmetric n v -> (tdev v n (r_med r) <= tdev v n med)%Q;
    sa_strict : 2 <= length med \/ symmetric n v ->
      0 < r_swaps r -> (tdev v n (r_med r) < tdev v n med)%Q;
    sa_same : r_swaps r = 0 -> r_med r = med;
    sa_iter : r_iter r <= Nat.max 1 maxiter;
    sa_count : r_iter r = r_swaps r \/ r_iter r = S (r_swaps r);
    sa_bound : r_swaps r < n ^ length med;
    sa_opt : 2 <= length med \/ symmetric n v -> r_iter r < maxiter -> swap_optimal v n (r_med r);
    sa_end : 2 <= length med -> (r_iter r = S (r_swaps r) /\ r_iter r <= maxiter /\ swap_optimal v n (r_med r)) \/
      (r_iter r = r_swaps r /\ r_iter r = maxiter);
    sa_ref : 2 <= length med -> (r_med r, r_swaps r, r_iter r) = best_swaps (dev_better v n) n med maxiter
  }.

  Lemma sd_all_single x maxiter : sizes n 1 -> x < n ->
    exists r, single_medoid M [x] = Ok r /\ sd_all [x] maxiter r.
  Proof.
    intros hs hx.
    assert (hm : medoids n (length [x]) [x]).
    { split; [auto|]. split; [repeat constructor; auto|]. intros m [<-|[]]. auto. }
    destruct (@rand_fasterpam_all _ _ _ _ _ _ _ _ _ _ HD (seq 0 n) [x] maxiter hs hm (seq_NoDup _ _)) as (r & e & h0).
    { intros j hj. apply in_seq in hj. lia. }
    exists r. split; [exact e|].
    pose proof (single_medoid_ok (Lt := Lt) HD (med := [x]) eq_refl (proj2 (proj2 hm))) as h.
    apply oks_elim with (2 := e) in h. destruct h as (_ & h2 & best & _ & _ & h5 & _).
    destruct h0. constructor; auto.
    - rewrite h2. lia.
    - rewrite h2, h5. destruct (best =? _); auto.
    - simpl. lia.
    - simpl. lia.
  Qed.

  Lemma sd_all_summary med maxiter r f : 2 <= length med -> medoids n (length med) med ->
    f = better (tdev v n) n (length med) ->
    sd_summary n D med maxiter r /\ r_swaps r + f (r_med r) <= f med -> sd_all med maxiter r.
  Proof.
    intros hk hm -> [[q1 q2 q3 q4 q5 q6 q7 q8 q9 q10] hb]. constructor; auto.
    - lia.
    - destruct q10 as [[h _]|[h _]]; auto.
    - pose proof (better_bound (tdev v n) med eq_refl (proj2 (proj2 hm))). lia.
    - intros _ hlt. destruct q10 as [[_ h]|[_ h]]; [auto|lia].
    - intros _. destruct q10 as [[h1 h]|[h1 h]]; auto.
  Qed.

  Lemma fastpam1_all med maxiter : sizes n (length med) -> medoids n (length med) med ->
    exists r, fastpam1 M med maxiter = Ok r /\ pam_swap M med maxiter = Ok r /\ sd_all med maxiter r.
  Proof.
    intros hs hm. destruct (Nat.eq_dec (length med) 1) as [e1|e1].
    - destruct (length_one med e1) as [x ->]. assert (hx : x < n) by (apply (proj2 (proj2 hm)); simpl; auto).
      destruct (sd_all_single maxiter hs hx) as (r & e & h). exists r.
      destruct (single_all (Lt := Lt) (proj1 HD) maxiter [] (mkOracle RSeq (fun _ _ => mkSched 1 []) (fun _ _ => RSeq)) hs hx)
        as (_ & _ & _ & -> & ->). auto.
    - assert (hk : 2 <= length med) by (destruct hs; lia).
      destruct (fastpam1_pam_swap (Lt := Lt) HD maxiter hs hm hk) as (r & e & e'). exists r.
      split; [auto|]. split; [auto|].
      pose proof (fastpam1_ok HD maxiter hs hm hk (@measure_better _ _ _ n D (length med))) as h.
      apply oks_elim with (2 := e) in h. eapply sd_all_summary; eauto.
  Qed.

  (** one more iteration *)
  Lemma fastpam1_next med m r r' :
    sizes n (length med) -> medoids n (length med) med -> 2 <= length med ->
    fastpam1 (Lt := Lt) M med m = Ok r -> fastpam1 M med (S m) = Ok r' ->
    r' = r \/
    (r_med r' = r_med r /\ swap_optimal v n (r_med r)) \/
    (exists b j, b < length med /\ j < n /\ r_med r' = swap (r_med r) b j /\
       (tdev v n (r_med r') < tdev v n (r_med r))%Q /\
       forall b' j', b' < length med -> j' < n -> (tdev v n (r_med r') <= tdev v n (swap (r_med r) b' j'))%Q).
  Proof.
    intros hs (hl & hnd & hin) hk e e'. assert (hn : 1 <= n) by (destruct hs; lia).
    unfold fastpam1 in e, e'.
    replace (length med =? 1) with false in * by (symmetry; apply Nat.eqb_neq; lia).
    pose proof (proj1 HD) as HM. destruct (emb_vals HD) as [he hdg].
    pose proof (initial_assignment_ok (Lt := Lt) HM hs hin hk) as h.
    apply oks_inv in h as ([loss data] & ei & hd & hsum & hown). rewrite ei in *. cbn [bind fst snd] in *.
    apply bind_ok in e as (s & es & e). apply bind_ok in e' as (s' & es' & e').
    injection e as <-. injection e' as <-. cbn [r_med].
    set (st0 := mkP med data (repeat lzero (length med)) loss 0 0) in *.
    assert (hg0 : p_good n D (length med) st0 /\ length (p_rl st0) = length med).
    { split; [|cbn; apply repeat_length]. constructor; cbn; auto.
      - constructor; cbn; auto.
      - eauto.
      - eapply near_sum_tdev; eauto. }
    assert (hbody : forall st, p_good n D (length med) st /\ length (p_rl st) = length med ->
       oks (fastpam1_iteration M st) (fun c =>
         (p_good n D (length med) (match c with Next s => s | Break s => s end) /\
          length (p_rl (match c with Next s => s | Break s => s end)) = length med) /\
         steep_step n D (length med) st c)).
    { intros st [hg hr]. eapply oks_mono; [refine (fastpam1_iteration_ok HD (k := length med) hn _ hg hr); lia|].
      intros [c|c] [h1 h2]; (split; [|exact h2]); (split; [apply h2|exact h1]). }
    destruct (steep_next n D (length med) (fastpam1_iteration M)
      (fun st => p_good n D (length med) st /\ length (p_rl st) = length med) st0 m (s := s) (s' := s'))
      as [h|[h|h]]; auto.
    - intros s1 e1. pose proof (whileM_inv m (fastpam1_iteration M)
        (fun st => p_good n D (length med) st /\ length (p_rl st) = length med) st0) as hw.
      apply oks_elim with (2 := e1) in hw; auto. intros st hst.
      eapply oks_mono; [apply hbody; auto|]. intros [c|c] [h _]; auto.
    - left. subst s'. auto.
  Qed.

  Lemma fastpam1_steepest med m r r' :
    sizes n (length med) -> medoids n (length med) med -> 2 <= length med ->
    fastpam1 (Lt := Lt) M med m = Ok r -> fastpam1 M med (S m) = Ok r' ->
    (r_med r' = r_med r /\ swap_optimal v n (r_med r)) \/
    (exists b j, b < length med /\ j < n /\ r_med r' = swap (r_med r) b j /\
       (tdev v n (r_med r') < tdev v n (r_med r))%Q /\
       forall b' j', b' < length med -> j' < n -> (tdev v n (r_med r') <= tdev v n (swap (r_med r) b' j'))%Q).
  Proof.
    intros hs hm hk e e'. destruct (fastpam1_next m hs hm hk e e') as [->|h]; [|exact h]. left. split; [auto|].
    destruct (fastpam1_all m hs hm) as (r1 & e1 & _ & a1). rewrite e in e1. injection e1 as <-.
    destruct (fastpam1_all (S m) hs hm) as (r2 & e2 & _ & a2). rewrite e' in e2. injection e2 as <-.
    apply (sa_opt a2 (or_introl hk)). pose proof (sa_iter a1). pose proof (sa_count a1). pose proof (sa_iter a2).
    destruct m as [|m]; [|lia].
    unfold fastpam1 in e. replace (length med =? 1) with false in e by (symmetry; apply Nat.eqb_neq; lia).
    apply bind_ok in e as ([l d] & _ & e). cbn in e. injection e as <-. cbn. lia.
  Qed.
End Exact.
