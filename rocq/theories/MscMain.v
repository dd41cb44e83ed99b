(** MscMain.v -- the MSC family for every number of medoids. *)
From Coq Require Import ZArith QArith Lqa Lia.
From Verif Require Import Base Num M_Mat M_Util M_Fasterpam M_Silhouette M_Msc M_Pammedsil M_ParFasterpam Hoare
  Spec SpecFacts Laws PamShape PamExact Reference LocalSearch ChooseFacts FpFacts PamFacts PamMain SortFacts SilFacts
  MscShape MscExact MscFacts MscK2.
Set Implicit Arguments.
Open Scope nat_scope.

Section Shape.
  Context {Nt Lt : Type} `{HNN : NumN Nt} `{HNL : NumL Lt} `{HFN : FromN Nt Lt}.
  Variable M : Mat Nt.
  Variable n : nat.
  Variable D : nat -> nat -> Nt.
  Hypothesis HM : is_matrix M n D.

  Lemma initial3_single x : sizes n 1 -> x < n ->
    exists p, initial_assignment3 (Lt := Lt) M [x] = Ok p.
  Proof.
    intros hs hx. unfold initial_assignment3. cbn [length]. rewrite (check_input_ok HM hs). cbn [bind idx nth_error].
    rewrite (len_n HM).
    assert (hm : oks (mapM (ia3_obj (Lt := Lt) M [x] x) (seq 0 n))
                     (fun rs => length rs = n /\ forall (o : nat) (y : Reco Nt * Lt), nth_error rs o = Some y -> True)).
    { apply mapM_seq with (R := fun _ (_ : Reco Nt * Lt) => True). intros o ho.
      unfold ia3_obj. rewrite (get_ok HM) by auto. exact I. }
    apply oks_inv in hm as (rs & -> & hl & _). cbn [bind].
    destruct (reduce_some ladd (l := map snd rs)) as [y ->].
    { destruct rs; simpl in *; [|congruence]. destruct hs. lia. }
    cbn [unwrap bind]. eauto.
  Qed.

  Lemma msc_single x maxiter : sizes n 1 -> x < n ->
    fastermsc (Lt := Lt) M [x] maxiter = single_medoid M [x] /\
    fastmsc (Lt := Lt) M [x] maxiter = single_medoid M [x] /\
    pammedsil_swap (Lt := Lt) M [x] maxiter = single_medoid M [x].
  Proof.
    intros hs hx. repeat split. unfold pammedsil_swap.
    destruct (initial3_single hs hx) as ([l d] & ->). reflexivity.
  Qed.

  Lemma fastermsc_returns med maxiter : sizes n (length med) -> inr n med ->
    returns n (fastermsc (Lt := Lt) M med maxiter) (length med).
  Proof.
    intros hs hin. destruct (Nat.eq_dec (length med) 1) as [h1|h1].
    - destruct med as [|x [|]]; simpl in h1; try lia.
      assert (hx : x < n) by (apply hin; simpl; auto).
      destruct (msc_single maxiter hs hx) as (-> & _). apply (single_returns HM hx).
    - destruct (Nat.eq_dec (length med) 2) as [h2|h2].
      + rewrite h2 in hs. pose proof (fastermsc_k2_shape (Lt := Lt) HM maxiter hs hin h2) as h.
        apply oks_inv in h as (r & e & g1 & g2 & g3 & g4 & _). exists r. rewrite h2.
        split; [auto|]. split; [auto|]. split; [auto|]. split; [auto|].
        intros o ho. apply g4. apply nth_In. lia.
      + assert (h3 : 3 <= length med) by (destruct hs; lia).
        pose proof (fastermsc_shape (Lt := Lt) HM maxiter hs hin h3) as h.
        apply oks_inv in h as (r & e & st & [i1 i2 i3 i4] & -> & _). eexists. split; [exact e|].
        cbn [r_med r_assi]. split; [auto|]. split; [auto|].
        destruct (assignment3_shape i1 i3) as [g1 g2]. split; [auto|].
        intros o ho. apply g2. apply nth_In. lia.
  Qed.

  Lemma pammedsil_swap_returns med maxiter : lltb (lzero : Lt) lzero = false ->
    sizes n (length med) -> inr n med ->
    returns n (pammedsil_swap (Lt := Lt) M med maxiter) (length med).
  Proof.
    intros hz hs hin. destruct (Nat.eq_dec (length med) 1) as [h1|h1].
    - destruct med as [|x [|]]; simpl in h1; try lia.
      assert (hx : x < n) by (apply hin; simpl; auto).
      destruct (msc_single maxiter hs hx) as (_ & _ & ->). apply (single_returns HM hx).
    - apply res_shape_returns with (maxiter := maxiter). apply pammedsil_swap_shape with (D := D); auto.
      destruct hs; lia.
  Qed.

  Lemma fastmsc_returns med maxiter : lltb (lzero : Lt) lzero = false ->
    (length med = 2 -> Dg n D /\ nis_zero (nzero : Nt) = true /\ lltb (lzero : Lt) (ladd lzero lzero) = false) ->
    sizes n (length med) -> inr n med ->
    returns n (fastmsc (Lt := Lt) M med maxiter) (length med).
  Proof.
    intros hz h2z hs hin. destruct (Nat.eq_dec (length med) 1) as [h1|h1].
    - destruct med as [|x [|]]; simpl in h1; try lia.
      assert (hx : x < n) by (apply hin; simpl; auto).
      destruct (msc_single maxiter hs hx) as (_ & -> & _). apply (single_returns HM hx).
    - apply res_shape_returns with (maxiter := maxiter).
      destruct (Nat.eq_dec (length med) 2) as [h2|h2].
      + destruct (h2z h2) as (a & b & c). rewrite h2 in *. apply fastmsc_k2_shape with (D := D); auto.
      + apply fastmsc_shape with (D := D); auto. destruct hs; lia.
  Qed.
End Shape.

Section Exact.
  Context {Nt Lt : Type} `{HLL : LossLaws Nt Lt} `{HAL : !AddLaws Nt} `{HDL : !DivLaws Nt Lt}.
  Variable M : Mat Nt.
  Variable n : nat.
  Variable D : nat -> nat -> Nt.
  Hypothesis HD : diss_matrix M n D.
  Local Notation v := (vals D).

  Definition msc_measure (k : nat) (m : list nat) : nat := better (fun m => 1 - med_sil v n m)%Q n k m.
  Lemma msc_measure_ok k : measure_ok3 n D k (msc_measure k).
  Proof. apply measure_better3. Qed.
  Lemma msc_measure_bound k med : medoids n k med -> msc_measure k med < n ^ k.
  Proof. intros (h1 & h2 & h3). apply better_bound; auto. Qed.

  Lemma fastermsc_all med maxiter :
    sizes n (length med) -> medoids n (length med) med -> 2 <= length med ->
    exists r : pam_result Lt, fastermsc M med maxiter = Ok r /\ msc_summary n D med maxiter r /\
      (3 <= length med -> own_clusters r) /\ r_swaps r < n ^ length med /\
      (sil_optimal v n med -> 0 < maxiter -> r_swaps r = 0 /\ r_iter r = 1) /\
      (r_med r, r_swaps r, r_iter r) = eager_swaps (sil_better v n) (seq 0 n) med maxiter.
  Proof.
    intros hs hm hk. pose proof (msc_measure_bound hm) as hb.
    pose proof (@msc_measure_ok (length med)) as hf.
    destruct (Nat.eq_dec (length med) 2) as [h2|h2].
    - pose proof hf as hf2. rewrite h2 in hf2.
      pose proof (fastermsc_k2_ok HD maxiter hs hm h2 hf2) as h.
      apply oks_inv in h as (r & e & h & hsw & hfx & href). exists r. split; [auto|]. split; [auto|].
      split; [intros; lia|]. split; [rewrite h2 in *; lia|auto].
    - assert (h3 : 3 <= length med) by lia.
      pose proof (fastermsc_ok HD maxiter hs hm h3 hf) as h.
      apply oks_inv in h as (r & e & h & ho & hsw & hfx & href). exists r. split; [auto|]. split; [auto|].
      split; [auto|]. split; [lia|auto].
  Qed.

  Lemma fastmsc_all med maxiter :
    sizes n (length med) -> medoids n (length med) med -> 2 <= length med ->
    exists r : pam_result Lt, fastmsc M med maxiter = Ok r /\ msc_summary n D med maxiter r /\
      (3 <= length med -> own_clusters r) /\ steep_end n D maxiter r /\ r_swaps r < n ^ length med /\
      (r_med r, r_swaps r, r_iter r) = best_swaps (sil_better v n) n med maxiter.
  Proof.
    intros hs hm hk. pose proof (msc_measure_bound hm) as hb.
    pose proof (@msc_measure_ok (length med)) as hf.
    destruct (Nat.eq_dec (length med) 2) as [h2|h2].
    - pose proof hf as hf2. rewrite h2 in hf2.
      pose proof (fastmsc_k2_ok HD maxiter hs hm h2 hf2) as h.
      apply oks_inv in h as (r & e & h & hst & hsw & href). exists r. split; [auto|]. split; [auto|].
      split; [intros; lia|]. split; [auto|]. split; [rewrite h2 in *; lia|auto].
    - assert (h3 : 3 <= length med) by lia.
      pose proof (fastmsc_ok HD maxiter hs hm h3 hf) as h.
      apply oks_inv in h as (r & e & h & ho & hst & hsw & href). exists r. split; [auto|]. split; [auto|].
      split; [auto|]. split; [auto|]. split; [lia|auto].
  Qed.

  Lemma pammedsil_swap_all med maxiter :
    sizes n (length med) -> medoids n (length med) med -> 2 <= length med ->
    exists r : pam_result Lt, pammedsil_swap M med maxiter = Ok r /\ msc_summary n D med maxiter r /\
      own_clusters r /\ steep_end n D maxiter r /\ r_swaps r < n ^ length med /\
      (r_med r, r_swaps r, r_iter r) = best_swaps (sil_better v n) n med maxiter.
  Proof.
    intros hs hm hk. pose proof (msc_measure_bound hm) as hb.
    pose proof (@msc_measure_ok (length med)) as hf.
    pose proof (pammedsil_swap_ok HD maxiter hs hm hk hf) as h.
    apply oks_inv in h as (r & e & h & ho & hst & hsw & href). exists r. split; [auto|]. split; [auto|].
    split; [auto|]. split; [auto|]. split; [lia|auto].
  Qed.

  (** in its own cluster unless the other medoid is at distance 0 *)
  Lemma nearest_own med assi c : medoids n (length med) med -> c < length med ->
    (forall o, o < n -> nearest v o med (nth o assi 0)) ->
    (forall c', c' < length med -> c' <> c -> (0 < v (nth c med 0%nat) (nth c' med 0%nat))%Q) ->
    nth (nth c med 0) assi 0 = c.
  Proof.
    intros (_ & hnd & hin) hc hnear hpos.
    assert (hcn : nth c med 0 < n) by (apply hin, nth_In; auto).
    destruct (hnear _ hcn) as [h1 h2].
    destruct (Nat.eq_dec (nth (nth c med 0) assi 0) c) as [|hne]; auto.
    specialize (hpos _ h1 hne). specialize (h2 c hc).
    pose proof (proj1 (diss_vals HD) _ hcn). lra.
  Qed.

  (** ** the swap done in each iteration *)
  Lemma next_choice St (mm : St -> list nat) body (good : St -> Prop) :
    (forall st, good st -> oks (body st) (fun c => match c with
       | Break s => mm s = mm st /\ choice n D (mm st) None
       | Next s => good s /\ exists b j, choice n D (mm st) (Some (b, j)) /\ mm s = set_nth (mm st) b j
       end)) ->
    forall m st0 s s', good st0 -> whileM m body st0 = Ok s -> whileM (S m) body st0 = Ok s' ->
    exists c, choice n D (mm s) c /\
      match c with None => mm s' = mm s | Some (b, j) => mm s' = set_nth (mm s) b j end.
  Proof.
    intros hbody. induction m; intros st0 s s' hg e e'.
    - cbn in e. injection e as <-. cbn [whileM] in e'. apply bind_ok in e' as (c & ec & e').
      pose proof (hbody _ hg) as h. apply oks_elim with (2 := ec) in h.
      destruct c as [s1|s1]; injection e' as <-.
      + destruct h as (_ & b & j & h1 & h2). exists (Some (b, j)). auto.
      + destruct h as (h1 & h2). exists None. auto.
    - cbn [whileM] in e. apply bind_ok in e as (c & ec & e).
      pose proof (hbody _ hg) as h. apply oks_elim with (2 := ec) in h.
      change (whileM (S (S m)) body st0) with
        (c <- body st0 ;; match c with Next s' => whileM (S m) body s' | Break s' => Ok s' end) in e'.
      rewrite ec in e'. cbn [bind] in e'. destruct c as [s1|s1].
      + eapply IHm; [|exact e|exact e']. apply h.
      + injection e as <-. injection e' as <-. exists None. destruct h as [h1 h2].
        rewrite h1. auto.
  Qed.

  Lemma pammedsil_swap_next med m r r' :
    sizes n (length med) -> medoids n (length med) med -> 2 <= length med ->
    pammedsil_swap (Lt := Lt) M med m = Ok r -> pammedsil_swap M med (S m) = Ok r' ->
    exists c, choice n D (r_med r) c /\
      match c with None => r_med r' = r_med r | Some (b, j) => r_med r' = set_nth (r_med r) b j end.
  Proof.
    intros hs (hl & hnd & hin) hk e e'. assert (hn : 1 <= n) by (destruct hs; lia).
    pose proof (proj1 HD) as HM. pose proof (emb_vals HD) as [he hdg].
    unfold pammedsil_swap, pammedsil_optimize in *.
    replace (length med =? 1) with false in * by (symmetry; apply Nat.eqb_neq; lia).
    pose proof (initial_assignment3_ok (Lt := Lt) HM True hs hin hk) as h.
    apply oks_inv in h as ([loss data] & ei & hd & hsum & hown). rewrite ei in *. cbn [bind fst snd] in *.
    apply bind_ok in e as (s & e1 & e). apply bind_ok in e' as (s' & e2 & e').
    injection e as <-. injection e' as <-. cbn [r_med].
    refine (@next_choice _ (@m_med Nt Lt) (pms_iteration M) (q_good n D (length med)) _ m _ s s' _ e1 e2).
    - intros st hg. pose proof (pms_iteration_ok HD hn hk hg) as h1.
      pose proof (pms_iteration_choice HD hn hk hg) as h2.
      apply oks_inv in h1 as (c & ec & h1). apply oks_elim with (2 := ec) in h2. rewrite ec. cbn [oks].
      destruct c as [s1|s1].
      + destruct h2 as (b & j & q1 & q2 & _). split; [apply h1|]. eauto.
      + destruct h2 as (q1 & q2 & _). auto.
    - constructor; cbn; auto.
      + constructor; auto.
      + eauto.
      + apply (ratio_sum_rtot HD hin hd hsum).
  Qed.

  Lemma fastmsc_next med m r r' :
    sizes n (length med) -> medoids n (length med) med -> 2 <= length med ->
    fastmsc (Lt := Lt) M med m = Ok r -> fastmsc M med (S m) = Ok r' ->
    exists c, choice n D (r_med r) c /\
      match c with None => r_med r' = r_med r | Some (b, j) => r_med r' = set_nth (r_med r) b j end.
  Proof.
    intros hs hm hk e e'.
    assert (same : forall m r, fastmsc (Lt := Lt) M med m = Ok r ->
              exists r2, pammedsil_swap (Lt := Lt) M med m = Ok r2 /\ r_med r2 = r_med r).
    { intros m0 r0 e0. destruct (Nat.eq_dec (length med) 2) as [h2|h2].
      - destruct (fastmsc_pammedsil_swap_k2 (Lt := Lt) HD m0 hs hm h2) as (r1 & r2 & e1 & e2 & e3 & _).
        exists r2. split; [auto|]. congruence.
      - assert (h3 : 3 <= length med) by lia.
        destruct (fastmsc_pammedsil_swap (Lt := Lt) HD m0 hs hm h3) as (r1 & e1 & e2).
        exists r1. split; [auto|]. congruence. }
    destruct (same _ _ e) as (p & ep & ->%eq_sym). destruct (same _ _ e') as (p' & ep' & ->%eq_sym).
    exact (pammedsil_swap_next m hs hm hk ep ep').
  Qed.

  (** the choice in terms of the medoid silhouette *)
  Definition best_move (med med' : list nat) : Prop :=
    (med' = med /\ sil_optimal v n med) \/
    (exists b j, b < length med /\ j < n /\ ~ In j med /\ med' = swap med b j /\
       (med_sil v n med < med_sil v n med')%Q /\
       forall b' j', b' < length med -> j' < n -> ~ In j' med ->
         (med_sil v n (swap med b' j') <= med_sil v n med')%Q).

  Lemma choice_move med med' c : 1 <= n -> choice n D med c ->
    match c with None => med' = med | Some (b, j) => med' = set_nth med b j end -> best_move med med'.
  Proof.
    intros hn hc e. destruct c as [[b j]|].
    - destruct (choice_some hn hc) as (h1 & h2 & h3 & h4 & h5). right. exists b, j.
      rewrite <- swap_set_nth in e by auto. subst med'. auto 10.
    - left. split; auto. apply (choice_none hn hc).
  Qed.
End Exact.
