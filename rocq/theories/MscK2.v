(** MscK2.v -- the special code of fastermsc and fastmsc for two medoids. *)
From Coq Require Import ZArith QArith Lqa Lia.
From Verif Require Import Base Num M_Mat M_Util M_Fasterpam M_Silhouette M_Msc M_Pammedsil Hoare
  Spec SpecFacts Laws PamShape PamExact Reference LocalSearch FpFacts PamFacts SortFacts SilFacts MscShape
  MscExact MscFacts.
Set Implicit Arguments.
Open Scope nat_scope.

Lemma nth_error_combine A B (l : list A) (l' : list B) i a b :
  nth_error (combine l l') i = Some (a, b) <-> nth_error l i = Some a /\ nth_error l' i = Some b.
Proof.
  revert l' i. induction l as [|x l IH]; intros [|y l'] [|i]; simpl;
    try (split; [intros h; congruence|intros [h1 h2]; congruence]).
  - split; [intros h; injection h as -> ->; auto|intros [h1 h2]; congruence].
  - apply IH.
Qed.

Section Shape.
  Context {Nt Lt : Type} `{HNN : NumN Nt} `{HNL : NumL Lt} `{HFN : FromN Nt Lt}.
  Variable M : Mat Nt.
  Variable n : nat.
  Variable D : nat -> nat -> Nt.
  Hypothesis HM : is_matrix M n D.

  (** stored distance of object [o] to medoid number [c] *)
  Definition dat (med : list nat) (o c : nat) (d : Nt) : Prop :=
    d = D o (nth c med 0) \/ (o = nth c med 0 /\ d = nzero).

  (** what is known about one object: its cluster, the two distances, its part of the loss *)
  Definition obj2 (med : list nat) (o a : nat) (d : Nt * Nt) (x : Lt) : Prop :=
    let p := if a =? 0 then fst d else snd d in
    let q := if a =? 0 then snd d else fst d in
    a < 2 /\ dat med o 0 (fst d) /\ dat med o 1 (snd d) /\
    (x = ratio p q \/ (o = nth a med 0 /\ p = nzero /\ x = lzero)) /\
    (nltb p q = true \/ neqb p q = true \/ nltb q p = false \/ (o = nth a med 0 /\ p = nzero)).

  Definition tab2 (med assi : list nat) (data : list (Nt * Nt)) (xs : list Lt) : Prop :=
    length assi = n /\ length data = n /\ length xs = n /\
    forall o a d x, nth_error assi o = Some a -> nth_error data o = Some d ->
      nth_error xs o = Some x -> obj2 med o a d x.

  Lemma tab2_of med (rs : list (nat * (Nt * Nt) * Lt)) :
    length rs = n ->
    (forall o r, nth_error rs o = Some r -> obj2 med o (fst (fst r)) (snd (fst r)) (snd r)) ->
    tab2 med (map (fun r => fst (fst r)) rs) (map (fun r => snd (fst r)) rs) (map snd rs).
  Proof.
    intros hl h. unfold tab2. rewrite !map_length. split; [auto|]. split; [auto|]. split; [auto|].
    intros o a d x. rewrite !nth_error_map. destruct (nth_error rs o) as [r|] eqn:e; simpl; try congruence.
    intros e1 e2 e3. injection e1 as <-. injection e2 as <-. injection e3 as <-. auto.
  Qed.

  Lemma tab2_get med assi data xs o : tab2 med assi data xs -> o < n ->
    exists a d x, nth_error assi o = Some a /\ nth_error data o = Some d /\
      nth_error xs o = Some x /\ obj2 med o a d x.
  Proof.
    intros (h1 & h2 & h3 & h4) ho.
    destruct (nth_error_ex assi (i := o)) as [a ha]; [lia|].
    destruct (nth_error_ex data (i := o)) as [d hd]; [lia|].
    destruct (nth_error_ex xs (i := o)) as [x hx]; [lia|].
    exists a, d, x. eauto 10.
  Qed.

  Lemma reduce_n (xs : list Lt) : 1 <= n -> length xs = n -> exists loss, reduce ladd xs = Some loss.
  Proof. intros hn hl. apply reduce_some. intros ->. simpl in hl. lia. Qed.

  Lemma initial_k2_shape med :
    sizes n 2 -> inr n med -> length med = 2 ->
    oks (initial_assignment_k2 M med) (fun p => exists xs, tab2 med (snd (fst p)) (snd p) xs /\
      reduce ladd xs = Some (fst (fst p))).
  Proof.
    intros hs hin hl. unfold initial_assignment_k2.
    destruct HM as (e1 & e2 & _). rewrite e2, e1. destruct hs as [hk [hn _]]. cbn [bind assertb].
    replace (N.of_nat n <=? u32_max)%N with true by (symmetry; apply N.leb_le; exact hn).
    rewrite hl, Nat.eqb_refl. cbn [bind assertb].
    rewrite idx_nth with (d := 0) by lia. cbn [bind]. rewrite idx_nth with (d := 0) by lia. cbn [bind].
    eapply oks_bind.
    - apply mapM_seq with (R := fun o (r : nat * (Nt * Nt) * Lt) =>
        obj2 med o (fst (fst r)) (snd (fst r)) (snd r)).
      intros o ho. unfold ia2_obj. rewrite !(get_ok HM) by (auto; apply inr_nth; auto; lia).
      cbn [bind oks]. destruct (nltb (D o (nth 0 med 0)) (D o (nth 1 med 0))) eqn:e; cbn;
        unfold obj2, dat; cbn; auto 10.
    - intros rs [h1 h2].
      destruct (@reduce_n (map snd rs)) as [loss hr]; [lia|rewrite map_length; auto|].
      rewrite hr. cbn [unwrap bind oks fst snd]. exists (map snd rs). split; [|auto].
      apply tab2_of; auto.
  Qed.

  Lemma find_best_swap_k2_shape (data : list (Nt * Nt)) j :
    length data = n -> j < n -> oks (find_best_swap_k2 (Lt := Lt) M data j) (fun p => snd p < 2).
  Proof.
    intros hl hj. unfold find_best_swap_k2.
    eapply oks_bind with (P := fun _ => True).
    - apply foldM_inv; auto. intros [o [d0 d1]] pl hin _. apply In_enum in hin. apply nth_error_lt in hin.
      unfold fbs2_step. rewrite (get_ok HM) by lia. simpl. auto.
    - intros pl _. pose proof (find_min_idx (l := [fst pl; snd pl]) ltac:(congruence)) as h.
      apply oks_inv in h as ([b x] & -> & h & _). cbn [bind oks snd]. exact h.
  Qed.

  Lemma dat_set med o c b j d : b < length med -> c <> b -> dat med o c d -> dat (set_nth med b j) o c d.
  Proof. intros hb hne. unfold dat. rewrite nth_set_nth_neq by auto. auto. Qed.

  Lemma do_swap_k2_shape med assi data xs b j :
    1 <= n -> length med = 2 -> tab2 med assi data xs -> b < 2 -> j < n ->
    oks (do_swap_k2 (Lt := Lt) M med assi data b j) (fun '(med', assi', data', loss') =>
      med' = set_nth med b j /\
      exists xs', tab2 med' assi' data' xs' /\ reduce ladd xs' = Some loss').
  Proof.
    intros hn hl ht hb hj. unfold do_swap_k2. rewrite (len_n HM), hl.
    replace (b <? 2) with true by (symmetry; apply Nat.ltb_lt; auto).
    replace (j <? n) with true by (symmetry; apply Nat.ltb_lt; auto). cbn [bind assertb].
    rewrite upd_ok by lia. cbn [bind].
    pose proof ht as (h1 & h2 & h3 & _).
    eapply oks_bind.
    - apply mapM_enum with (R := fun o _ (r : nat * (Nt * Nt) * Lt) =>
        obj2 (set_nth med b j) o (fst (fst r)) (snd (fst r)) (snd r)).
      intros o [a [d0 d1]] ho. apply nth_error_combine in ho as [ha hd].
      assert (ho : o < n) by (rewrite <- h1; apply nth_error_lt in ha; auto).
      destruct (tab2_get ht ho) as (a' & d' & x' & ha' & hd' & _ & hobj).
      rewrite ha in ha'. injection ha' as <-. rewrite hd in hd'. injection hd' as <-.
      destruct hobj as (_ & q0 & q1 & _). cbn [fst snd] in q0, q1.
      unfold do_swap2_obj.
      assert (hb0 : nth b (set_nth med b j) 0 = j) by (apply nth_set_nth_eq; lia).
      destruct b as [|[|]]; [| |lia]; cbn [Nat.eqb].
      + assert (q1' : dat (set_nth med 0 j) o 1 d1) by (apply dat_set; auto; lia).
        destruct (o =? j) eqn:ej.
        * apply Nat.eqb_eq in ej. subst o. cbn [oks fst snd]. unfold obj2. cbn [fst snd Nat.eqb].
          unfold dat at 1. rewrite hb0. auto 12.
        * rewrite (get_ok HM) by auto. cbn [bind oks].
          assert (q0' : dat (set_nth med 0 j) o 0 (D o j)) by (left; rewrite hb0; auto).
          destruct (nltb (D o j) d1) eqn:el; [|destruct (neqb (D o j) d1 && (a =? 0)) eqn:ee];
            cbn [orb fst snd]; unfold obj2; cbn [fst snd Nat.eqb]; auto 10.
          apply andb_prop in ee as [ee _]. auto 12.
      + assert (q0' : dat (set_nth med 1 j) o 0 d0) by (apply dat_set; auto; lia).
        destruct (o =? j) eqn:ej.
        * apply Nat.eqb_eq in ej. subst o. cbn [oks fst snd]. unfold obj2. cbn [fst snd Nat.eqb].
          unfold dat at 2. rewrite hb0. auto 12.
        * rewrite (get_ok HM) by auto. cbn [bind oks].
          assert (q1' : dat (set_nth med 1 j) o 1 (D o j)) by (left; rewrite hb0; auto).
          destruct (nltb (D o j) d0) eqn:el; [|destruct (neqb (D o j) d0 && (a =? 1)) eqn:ee];
            cbn [orb fst snd]; unfold obj2; cbn [fst snd Nat.eqb]; auto 10.
          apply andb_prop in ee as [ee _]. auto 12.
    - intros rs [g1 g2].
      assert (hlen : length rs = n) by (rewrite g1, combine_length, h1, h2; lia).
      destruct (@reduce_n (map snd rs)) as [loss hr]; [auto|rewrite map_length; auto|].
      rewrite hr. cbn [unwrap bind oks]. split; [auto|]. exists (map snd rs). split; [|auto].
      apply tab2_of; auto. intros o r hr'.
      destruct (nth_error_ex (combine assi data) (i := o)) as [x hx].
      { apply nth_error_lt in hr'. congruence. }
      eauto.
  Qed.

  Record f_inv (st : kst Nt Lt) : Prop := {
    fi_len : length (k_med st) = 2;
    fi_inr : inr n (k_med st);
    fi_tab : exists xs, tab2 (k_med st) (k_assi st) (k_data st) xs
  }.
  Record k_inv (st : kst Nt Lt) : Prop := {
    ki_len : length (k_med st) = 2;
    ki_inr : inr n (k_med st);
    ki_tab : exists xs, tab2 (k_med st) (k_assi st) (k_data st) xs /\
               reduce ladd xs = Some (k_loss st)
  }.
  Lemma k_f_inv st : k_inv st -> f_inv st.
  Proof. intros [h1 h2 (xs & h3 & _)]. constructor; eauto. Qed.

  (** the possible outcomes for one candidate *)
  Inductive kcand_step (st : kst Nt Lt) (j : nat) : ctl (kst Nt Lt) -> Prop :=
  | ks_break : j = k_last st -> kcand_step st j (Break st)
  | ks_medoid a : j <> k_last st -> nth_error (k_assi st) j = Some a -> nth a (k_med st) 0 = j -> a < 2 ->
      kcand_step st j (Next st)
  | ks_worse newloss b : j <> k_last st -> find_best_swap_k2 M (k_data st) j = Ok (newloss, b) ->
      lleb (k_loss st) newloss = true -> kcand_step st j (Next st)
  | ks_swap newloss b assi' data' loss' : j <> k_last st ->
      find_best_swap_k2 M (k_data st) j = Ok (newloss, b) -> b < 2 ->
      lleb (k_loss st) newloss = false ->
      do_swap_k2 M (k_med st) (k_assi st) (k_data st) b j = Ok (set_nth (k_med st) b j, assi', data', loss') ->
      k_inv (mkK (set_nth (k_med st) b j) assi' data' loss' j (S (k_swaps st)) (k_iter st)) ->
      kcand_step st j (Next (mkK (set_nth (k_med st) b j) assi' data' loss' j (S (k_swaps st)) (k_iter st))).

  Lemma k2_cand_shape st j : 1 <= n -> j < n -> k_inv st -> oks (k2_cand M st j) (kcand_step st j).
  Proof.
    intros hn hj [i1 i2 (xs & ht & hr)]. unfold k2_cand.
    destruct (j =? k_last st) eqn:e1; [apply Nat.eqb_eq in e1; constructor; auto|].
    apply Nat.eqb_neq in e1.
    destruct (tab2_get ht hj) as (a & d & x & ha & hd & hx & hobj).
    rewrite (idx_some _ _ ha). cbn [bind]. destruct hobj as (ha2 & _).
    rewrite idx_nth with (d := 0) by lia. cbn [bind].
    destruct (j =? nth a (k_med st) 0) eqn:e2.
    { apply Nat.eqb_eq in e2. apply ks_medoid with (a := a); auto. }
    assert (hf : oks (find_best_swap_k2 (Lt := Lt) M (k_data st) j) (fun p => snd p < 2)).
    { apply find_best_swap_k2_shape; auto. apply ht. }
    apply oks_inv in hf as ([newloss b] & ef & hb). rewrite ef. cbn [bind snd] in *.
    destruct (lleb (k_loss st) newloss) eqn:e3.
    { apply ks_worse with (newloss := newloss) (b := b); auto. }
    pose proof (do_swap_k2_shape hn i1 ht hb hj) as hs.
    apply oks_inv in hs as ([[[med' assi'] data'] loss'] & es & -> & xs' & ht' & hr'). rewrite es.
    cbn [bind oks]. apply ks_swap with (newloss := newloss); auto.
    constructor; cbn [k_med k_assi k_data k_loss].
    - rewrite length_set_nth. auto.
    - apply inr_set_nth; auto.
    - eauto.
  Qed.

  Lemma kcand_step_inv st j s : kcand_step st j (Next s) -> k_inv st -> k_inv s.
  Proof. intros h hi. inversion h; subst; auto. Qed.

  Lemma k_inv_inc st it : k_inv st ->
    k_inv (mkK (k_med st) (k_assi st) (k_data st) (k_loss st) (k_last st) (k_swaps st) it).
  Proof. intros [h1 h2 h3]. constructor; auto. Qed.

  Lemma tab2_assi med assi data xs : tab2 med assi data xs ->
    length assi = n /\ forall a, In a assi -> a < 2.
  Proof.
    intros ht. split; [apply ht|]. intros a ha. apply In_nth_error in ha as [o ho].
    assert (hon : o < n) by (destruct ht as (h1 & _); rewrite <- h1; apply nth_error_lt in ho; auto).
    destruct (tab2_get ht hon) as (a' & d & x & ha & _ & _ & h & _). congruence.
  Qed.

  (** fastermsc with two medoids: never panics, for every numeric type *)
  Lemma fastermsc_k2_shape med maxiter :
    sizes n 2 -> inr n med -> length med = 2 ->
    oks (fastermsc (Lt := Lt) M med maxiter) (fun r =>
      length (r_med r) = 2 /\ inr n (r_med r) /\ length (r_assi r) = n /\
      (forall a, In a (r_assi r) -> a < 2) /\
      r_iter r <= maxiter /\ r_swaps r <= n * r_iter r).
  Proof.
    intros hs hin hl. assert (hn : 1 <= n) by (destruct hs; lia).
    unfold fastermsc. rewrite hl. cbn [Nat.eqb]. unfold fastermsc_k2. rewrite hl. cbn [Nat.eqb assertb bind].
    pose proof (initial_k2_shape hs hin hl) as h.
    apply oks_inv in h as ([[loss assi] data] & -> & xs & ht & hr). cbn [bind fst snd] in *.
    rewrite (len_n HM).
    eapply oks_bind with (P := fun st => k_inv st /\ k_iter st <= maxiter /\ k_swaps st <= n * k_iter st).
    - apply whileM_oks with (I := fun i st => k_inv st /\ k_iter st = i /\ k_swaps st <= n * i).
      + split; [constructor; cbn; eauto|]. cbn. lia.
      + intros i st hlt (h1 & h2 & h3). unfold k2_iteration. rewrite (len_n HM).
        eapply oks_bind with (P := fun st' => k_inv st' /\ k_iter st' = S i /\ k_swaps st' <= n * i + n).
        * apply forM_oks with (I := fun pre st' => k_inv st' /\ k_iter st' = S i /\
                                     k_swaps st' <= n * i + length pre).
          -- split; [apply k_inv_inc; auto|]. cbn. split; lia.
          -- intros pre j post s e (his & hsi & hss).
             assert (hjn : j < n).
             { assert (hj : In j (seq 0 n)) by (rewrite e; apply in_or_app; simpl; auto).
               apply in_seq in hj. lia. }
             assert (hle : length pre <= n).
             { apply (f_equal (@length _)) in e. rewrite seq_length, app_length in e. lia. }
             eapply oks_mono; [apply k2_cand_shape; auto|].
             intros [s'|s'] hc.
             ++ split; [eapply kcand_step_inv; eauto|].
                rewrite app_length; simpl. inversion hc; subst; simpl; split; auto; lia.
             ++ inversion hc; subst. split; [auto|]. split; lia.
          -- intros s (g1 & g2 & g3). rewrite seq_length in g3. auto.
        * intros st' (g1 & g2 & g3). destruct (_ || _); cbn [oks].
          -- rewrite g2. split; [auto|]. split; lia.
          -- split; [auto|]. split; [auto|]. lia.
      + intros st (h1 & h2 & h3). rewrite h2. auto.
    - intros st ([i1 i2 (ys & hy & _)] & h2 & h3). cbn [oks r_med r_assi r_iter r_swaps].
      destruct (tab2_assi hy). auto 10.
  Qed.

  (** ** fastmsc with two medoids *)
  Definition skipped (st : kst Nt Lt) (j : nat) : Prop := nth (nth j (k_assi st) 0) (k_med st) 0 = j.

  Definition best2_shape (st : kst Nt Lt) (t : nat) (best : Lt * option (nat * nat)) : Prop :=
    match snd best with
    | None => fst best = lzero /\ forall j, j < t -> skipped st j
    | Some (b, j) => b < 2 /\ j < n
    end.

  Lemma fastmsc_k2_cand_shape st best j :
    j < n -> k_inv st -> best2_shape st j best ->
    oks (fastmsc_k2_cand M st best j) (best2_shape st (S j)).
  Proof.
    intros hj [i1 i2 (xs & ht & hr)] hb. unfold fastmsc_k2_cand.
    destruct (tab2_get ht hj) as (a & d & x & ha & hd & hx & hobj).
    rewrite (idx_some _ _ ha). cbn [bind]. destruct hobj as (ha2 & _).
    rewrite idx_nth with (d := 0) by lia. cbn [bind].
    destruct (j =? nth a (k_med st) 0) eqn:e2.
    { apply Nat.eqb_eq in e2. cbn [oks]. unfold best2_shape in *. destruct (snd best) as [[b' j']|]; auto.
      destruct hb as [hb1 hb2]. split; auto. intros j' hj'. destruct (Nat.eq_dec j' j) as [->|].
      - unfold skipped. rewrite (nth_error_nth _ _ 0 ha). auto.
      - apply hb2. lia. }
    assert (hf : oks (find_best_swap_k2 (Lt := Lt) M (k_data st) j) (fun p => snd p < 2)).
    { apply find_best_swap_k2_shape; auto. apply ht. }
    apply oks_inv in hf as ([newloss b] & ef & hbb). rewrite ef. cbn [bind snd oks] in *.
    unfold best2_shape in *. destruct (snd best) as [[b' j']|] eqn:es; cbn [snd]; auto.
    destruct (lltb newloss (fst best)); cbn [snd]; auto. rewrite es. auto.
  Qed.

  Hypothesis Hdg : Dg n D.
  Hypothesis zero_zero : nis_zero (nzero : Nt) = true.
  Hypothesis sum_zero : lltb (lzero : Lt) (ladd lzero lzero) = false.

  Lemma all_skipped_loss st : 2 <= n -> k_inv st -> (forall j, j < n -> skipped st j) ->
    k_loss st = ladd lzero lzero.
  Proof.
    intros hn [i1 i2 (xs & ht & hr)] hsk.
    assert (hX : forall j, j < n -> nth_error xs j = Some lzero).
    { intros j hj. destruct (tab2_get ht hj) as (a & [d0 d1] & x & ha & hd & hx & hobj).
      specialize (hsk j hj). unfold skipped in hsk. rewrite (nth_error_nth _ _ 0 ha) in hsk.
      destruct hobj as (h1 & h2 & h3 & h4 & _). cbn [fst snd] in *. rewrite hx. f_equal.
      assert (hz : (if a =? 0 then d0 else d1) = nzero).
      { destruct a as [|[|]]; [| |lia]; cbn [Nat.eqb].
        - destruct h2 as [h2|[_ h2]]; auto. rewrite h2, hsk. apply Hdg; auto.
        - destruct h3 as [h3|[_ h3]]; auto. rewrite h3, hsk. apply Hdg; auto. }
      destruct h4 as [h4|(_ & _ & h4)]; auto. rewrite h4, hz. unfold ratio. rewrite zero_zero. auto. }
    assert (hn2 : n = 2).
    { assert (hIn : forall j, j < n -> In j (k_med st)).
      { intros j hj. rewrite <- (hsk j hj). apply nth_In. rewrite i1.
        destruct (tab2_get ht hj) as (a & d & x & ha & _ & _ & h & _).
        rewrite (nth_error_nth _ _ 0 ha). auto. }
      destruct (Nat.eq_dec n 2) as [|hne]; auto. exfalso.
      pose proof (hIn 0 ltac:(lia)). pose proof (hIn 1 ltac:(lia)). pose proof (hIn 2 ltac:(lia)).
      destruct (k_med st) as [|m0 [|m1 [|]]]; simpl in i1; try lia. simpl in *. lia. }
    destruct ht as (_ & _ & hl & _).
    pose proof (hX 0 ltac:(lia)) as h0. pose proof (hX 1 ltac:(lia)) as h1.
    destruct xs as [|x0 [|x1 [|]]]; simpl in hl; try lia. simpl in h0, h1, hr. congruence.
  Qed.

  Lemma fastmsc_k2_iteration_shape st :
    2 <= n -> k_inv st ->
    oks (fastmsc_k2_iteration M st) (fun c => match c with
      | Next s => k_inv s /\ k_iter s = S (k_iter st) /\ k_swaps s <= S (k_swaps st)
      | Break s => f_inv s /\ k_iter s = S (k_iter st) /\ k_swaps s <= S (k_swaps st)
      end).
  Proof.
    intros hn hi. unfold fastmsc_k2_iteration.
    set (st1 := mkK (k_med st) (k_assi st) (k_data st) (k_loss st) (k_last st) (k_swaps st) (S (k_iter st))).
    assert (hi1 : k_inv st1) by (apply k_inv_inc; auto).
    rewrite (len_n HM).
    eapply oks_bind with (P := best2_shape st1 n).
    - apply foldM_seq with (I := best2_shape st1).
      + split; auto. intros; lia.
      + intros j best hj hb. apply fastmsc_k2_cand_shape; auto.
    - intros best hb. destruct (lltb (fst best) (k_loss st1)) eqn:e; cbn [negb].
      2:{ cbn [oks]. split; [apply k_f_inv; auto|]. cbn. auto. }
      unfold best2_shape in hb. destruct (snd best) as [[b j]|] eqn:es.
      + destruct hb as [hb hj]. destruct hi1 as [i1 i2 (xs & ht & hr)].
        assert (hn1 : 1 <= n) by lia.
        pose proof (do_swap_k2_shape hn1 i1 ht hb hj) as hs.
        apply oks_inv in hs as ([[[med' assi'] data'] loss'] & es' & -> & xs' & ht' & hr'). rewrite es'.
        cbn [bind]. destruct (lltb loss' (k_loss st1)); cbn [negb oks k_iter k_swaps st1].
        * split; [|auto]. constructor; cbn [k_med k_assi k_data k_loss]; eauto using inr_set_nth.
          rewrite length_set_nth. auto.
        * split; [|auto]. constructor; cbn [k_med k_assi k_data k_loss]; eauto using inr_set_nth.
          rewrite length_set_nth. auto.
      + destruct hb as [hb1 hb2]. rewrite hb1, (all_skipped_loss hn hi1 hb2) in e. congruence.
  Qed.

  Lemma fastmsc_k2_shape med maxiter :
    sizes n 2 -> inr n med -> length med = 2 ->
    oks (fastmsc (Lt := Lt) M med maxiter) (res_shape n 2 maxiter).
  Proof.
    intros hs hin hl. assert (hn : 2 <= n) by (destruct hs; lia).
    unfold fastmsc. rewrite hl. cbn [Nat.eqb]. unfold fastmsc_k2. rewrite hl. cbn [Nat.eqb assertb bind].
    pose proof (initial_k2_shape hs hin hl) as h.
    apply oks_inv in h as ([[loss assi] data] & -> & xs & ht & hr). cbn [bind fst snd] in *.
    eapply oks_bind with (P := fun st => f_inv st /\ k_iter st <= maxiter /\ k_swaps st <= k_iter st).
    - apply whileM_oks with (I := fun i st => k_inv st /\ k_iter st = i /\ k_swaps st <= i).
      + split; [constructor; cbn; eauto|]. cbn. lia.
      + intros i st hlt (h1 & h2 & h3). eapply oks_mono; [apply fastmsc_k2_iteration_shape; auto|].
        intros [s|s] (g1 & g2 & g3); (split; [auto|]); split; lia.
      + intros st (h1 & h2 & h3). split; [apply k_f_inv; auto|]. split; lia.
    - intros st ([i1 i2 (ys & hy)] & h2 & h3). cbn [oks]. unfold res_shape.
      cbn [r_med r_assi r_iter r_swaps]. destruct (tab2_assi hy). auto 10.
  Qed.
End Shape.

Section Exact.
  Context {Nt Lt : Type} `{HLL : LossLaws Nt Lt} `{HAL : !AddLaws Nt} `{HDL : !DivLaws Nt Lt}.
  Variable M : Mat Nt.
  Variable n : nat.
  Variable D : nat -> nat -> Nt.
  Hypothesis HD : diss_matrix M n D.
  Local Notation v := (vals D).
  Let HM : is_matrix M n D := proj1 HD.
  Let Hdg : Dg n D := proj2 (emb_vals HD).

  Lemma dat_exact med o c d : o < n -> dat D med o c d -> d = D o (nth c med 0).
  Proof. intros ho [->|[e ->]]; auto. rewrite <- e. symmetry. apply Hdg. auto. Qed.

  Lemma near_ratio_2 med o a : length med = 2 -> a < 2 ->
    (v o (nth a med 0%nat) <= v o (nth (1 - a) med 0%nat))%Q ->
    (near_ratio v o med == v o (nth a med 0%nat) / v o (nth (1 - a) med 0%nat))%Q.
  Proof. intros hl ha hle. apply near_ratio_pos; auto; try lia. Qed.

  Lemma obj2_exact med o a d (x : Lt) : length med = 2 -> inr n med -> o < n -> obj2 D med o a d x ->
    a < 2 /\ d = (D o (nth 0 med 0), D o (nth 1 med 0)) /\
    nearest v o med a /\ (vL x == near_ratio v o med)%Q.
  Proof.
    intros hl hin ho (h1 & h2 & h3 & h4 & h5). destruct d as [d0 d1]. cbn [fst snd] in *.
    apply dat_exact in h2; auto. apply dat_exact in h3; auto. subst d0 d1.
    split; [auto|]. split; [auto|].
    assert (hm : forall c, c < 2 -> nth c med 0 < n) by (intros; apply inr_nth; auto; lia).
    pose proof (proj2 (proj2 HD)) as hok.
    assert (hle : (v o (nth a med 0%nat) <= v o (nth (1 - a) med 0%nat))%Q).
    { assert (ep : (if a =? 0 then D o (nth 0 med 0) else D o (nth 1 med 0)) = D o (nth a med 0))
        by (destruct a as [|[|]]; auto; lia).
      assert (eq : (if a =? 0 then D o (nth 1 med 0) else D o (nth 0 med 0)) = D o (nth (1 - a) med 0))
        by (destruct a as [|[|]]; auto; lia).
      rewrite ep, eq in *. unfold vals.
      destruct (hok o (nth a med 0)) as [k1 k2]; auto.
      destruct (hok o (nth (1 - a) med 0)) as [k3 k4]; [auto|apply hm; lia|].
      destruct h5 as [h5|[h5|[h5|[_ h5]]]].
      - apply nltb_spec in h5; auto. lra.
      - apply neqb_spec in h5; auto. lra.
      - apply Qnot_lt_le. intros c. apply nltb_spec in c; auto. congruence.
      - rewrite h5, vN_zero. exact k4. }
    split.
    - split; [lia|]. intros c hc. destruct (Nat.eq_dec c a) as [->|]; [lra|].
      replace c with (1 - a) by lia. auto.
    - rewrite (near_ratio_2 med o hl h1 hle). destruct h4 as [h4|(e & h4 & h6)].
      + rewrite h4. destruct a as [|[|]]; [| |lia]; cbn [Nat.eqb Nat.sub];
          apply (vL_ratio_D HD); auto.
      + rewrite h6, vL_zero. rewrite <- e.
        assert (hz : (v o o == 0)%Q) by (apply (proj1 (diss_vals HD)); auto).
        rewrite hz. unfold Qdiv. lra.
  Qed.

  Lemma tab2_rtot med assi data xs (loss : Lt) : length med = 2 -> inr n med ->
    tab2 n D med assi data xs -> reduce ladd xs = Some loss -> (vL loss == rtot v n med)%Q.
  Proof.
    intros hl hin ht hr. apply reduce_sum in hr. rewrite hr. unfold rtot.
    pose proof ht as (_ & _ & hx & _).
    rewrite <- hx, <- map_fst_enum, sumQ_map.
    rewrite <- (map_snd_enum xs) at 1. rewrite sumQ_map. apply sumQ_ext.
    intros [o x] h. apply In_enum in h. simpl.
    assert (ho : o < n) by (rewrite <- hx; apply nth_error_lt with (1 := h)).
    destruct (tab2_get ht ho) as (a & d & x' & ha & hd & hx' & hobj).
    rewrite h in hx'. injection hx' as <-. apply (obj2_exact hl hin ho hobj).
  Qed.

  Lemma tab2_nearest med assi data (xs : list Lt) o : length med = 2 -> inr n med ->
    tab2 n D med assi data xs -> o < n -> nearest v o med (nth o assi 0).
  Proof.
    intros hl hin ht ho. destruct (tab2_get ht ho) as (a & d & x & ha & hd & hx & hobj).
    rewrite (nth_error_nth _ _ 0 ha). apply (obj2_exact hl hin ho hobj).
  Qed.

  (** one evaluated swap is what the code computes *)
  Lemma swap2_term med o b j : length med = 2 -> inr n med -> o < n -> j < n -> b < 2 ->
    (vL (if nltb (D o j) (D o (nth (1 - b)%nat med 0%nat)) then ratio (D o j) (D o (nth (1 - b)%nat med 0%nat)) : Lt
         else ratio (D o (nth (1 - b)%nat med 0%nat)) (D o j)) == near_ratio v o (swap med b j))%Q.
  Proof.
    intros hl hin ho hj hb.
    assert (hm : nth (1 - b) med 0 < n) by (apply inr_nth; auto; lia).
    assert (h1 : b < 2) by auto. assert (h2 : 1 - b < 2) by lia. assert (h3 : b <> 1 - b) by lia.
    pose proof (near_ratio_swap2 v o med j hl h1 h2 h3 hb) as e. cbv zeta in e.
    rewrite Nat.eqb_refl in e.
    destruct (proj2 (proj2 HD) o j ho hj) as [k1 _].
    destruct (proj2 (proj2 HD) o (nth (1 - b) med 0) ho hm) as [k2 _].
    revert e. destruct (Qlt_le_dec (v o j) (v o (nth (1 - b) med 0%nat))) as [h|h]; intros e.
    - assert (en : nltb (D o j) (D o (nth (1 - b) med 0)) = true) by (apply nltb_spec; auto).
      rewrite en, (vL_ratio_D HD) by auto. symmetry. exact e.
    - assert (en : nltb (D o j) (D o (nth (1 - b) med 0)) = false).
      { destruct (nltb (D o j) (D o (nth (1 - b) med 0))) eqn:en; auto. apply nltb_spec in en; auto.
        unfold vals in h. lra. }
      rewrite en, (vL_ratio_D HD) by auto. symmetry. exact e.
  Qed.

  Lemma find_best_swap_k2_ok med assi data (xs : list Lt) j :
    length med = 2 -> inr n med -> tab2 n D med assi data xs -> j < n ->
    oks (find_best_swap_k2 M data j) (fun p : Lt * nat =>
      snd p < 2 /\ (vL (fst p) == rtot v n (swap med (snd p) j))%Q /\
      (forall c, c < 2 -> (vL (fst p) <= rtot v n (swap med c j))%Q) /\
      (forall c, c < snd p -> (vL (fst p) < rtot v n (swap med c j))%Q)).
  Proof.
    intros hl hin ht hj. unfold find_best_swap_k2.
    pose proof ht as (_ & hlen & _).
    eapply oks_bind.
    - apply foldM_enum with (I := fun t (pl : Lt * Lt) =>
        (vL (fst pl) == sumQ (fun o => near_ratio v o (swap med 0 j)) (seq 0 t))%Q /\
        (vL (snd pl) == sumQ (fun o => near_ratio v o (swap med 1 j)) (seq 0 t))%Q).
      + cbn. rewrite vL_zero. split; reflexivity.
      + intros o [d0 d1] pl ho [h1 h2].
        assert (hon : o < n) by (rewrite <- hlen; apply nth_error_lt with (1 := ho)).
        destruct (tab2_get ht hon) as (a & d & x' & ha & hd & hx' & hobj).
        rewrite ho in hd. injection hd as <-.
        destruct (obj2_exact hl hin hon hobj) as (_ & ed & _). injection ed as -> ->.
        unfold fbs2_step. rewrite (get_ok HM) by auto. cbn [bind oks fst snd].
        rewrite !sumQ_seq_S, !vL_add, h1, h2.
        pose proof (swap2_term (b := 0) (j := j) (o := o) hl hin hon hj ltac:(lia)) as t0.
        pose proof (swap2_term (b := 1) (j := j) (o := o) hl hin hon hj ltac:(lia)) as t1.
        cbn [Nat.sub] in t0, t1. rewrite t0, t1. split; lra.
    - rewrite hlen. intros pl [h1 h2].
      pose proof (find_min_ok (l := [fst pl; snd pl]) ltac:(congruence)) as hf.
      apply oks_inv in hf as ([b x] & -> & f1 & f2 & f3 & f4). cbn [bind oks fst snd length] in *.
      assert (E : forall c, c < 2 -> (vL (nth c [fst pl; snd pl] lzero) == rtot v n (swap med c j))%Q).
      { intros c hc. destruct c as [|[|]]; [| |lia]; cbn [nth]; auto. }
      split; [auto|]. split; [rewrite f2; apply E; auto|]. split.
      + intros c hc. rewrite <- (E c hc). auto.
      + intros c hc. rewrite <- E by lia. auto.
  Qed.

  Record k_good (st : kst Nt Lt) : Prop := {
    kg_inv : k_inv n D st;
    kg_nodup : NoDup (k_med st)
  }.
  Lemma kg_loss st : k_good st -> (vL (k_loss st) == rtot v n (k_med st))%Q.
  Proof. intros [[h1 h2 (xs & h3 & h4)] _]. eapply tab2_rtot; eauto. Qed.
  Lemma kg_nearest st o : k_good st -> o < n -> nearest v o (k_med st) (nth o (k_assi st) 0).
  Proof. intros [[h1 h2 (xs & h3 & h4)] _] ho. eapply tab2_nearest; eauto. Qed.

  Lemma improve_not_in med b j : length med = 2 -> inr n med -> b < 2 ->
    (rtot v n (swap med b j) < rtot v n med)%Q -> ~ In j med.
  Proof.
    intros hl hin hb hlt hj. pose proof (@rtot_copy2 v n med b j (diss_vals HD) hin hl hb hj). lra.
  Qed.

  (** ** fastermsc *)
  Definition k_nonimp (st : kst Nt Lt) (j : nat) : Prop :=
    ~ In j (k_med st) -> forall b, b < 2 ->
      (rtot v n (k_med st) <= rtot v n (swap (k_med st) b j))%Q.

  Lemma k2_cand_spec f st j :
    1 <= n -> j < n -> measure_ok3 n D 2 f -> k_good st ->
    oks (k2_cand M st j) (fun c => match c with
      | Break s => s = st /\ j = k_last st
      | Next s => k_good s /\ k_iter s = k_iter st /\ j <> k_last st /\
          ((s = st /\ k_nonimp st j) \/
           ((rtot v n (k_med s) < rtot v n (k_med st))%Q /\ f (k_med s) < f (k_med st) /\
            k_last s = j /\ k_swaps s = S (k_swaps st) /\ k_nonimp s j /\ ~ k_nonimp st j /\
            sil_try n D (k_med st) j = Some (k_med s)))
      end).
  Proof.
    intros hn hj hf hg. pose proof hg as [g1 g2]. pose proof (kg_loss hg) as hloss.
    pose proof g1 as [i1 i2 (xs & ht & hr)].
    eapply oks_mono; [apply (k2_cand_shape HM hn hj g1)|].
    intros c hc.
    destruct hc as [e1|a e1 e2 e3 e4|nl b e1 e2 e3|nl b assi' data' loss' e1 e2 e3 e4 e5 e6].
    - auto.
    - split; [auto|]. split; [auto|]. split; [auto|]. left. split; [auto|].
      intros hni. exfalso. apply hni. rewrite <- e3. apply nth_In. lia.
    - split; [auto|]. split; [auto|]. split; [auto|]. left. split; [auto|].
      intros _ b' hb'. apply lleb_spec in e3.
      pose proof (find_best_swap_k2_ok i1 i2 ht hj) as hb. apply oks_elim with (2 := e2) in hb.
      destruct hb as (b1 & b2 & b3 & _). specialize (b3 b' hb'). cbn [fst] in *. lra.
    - pose proof (find_best_swap_k2_ok i1 i2 ht hj) as hb. apply oks_elim with (2 := e2) in hb.
      destruct hb as (b1 & b2 & b3 & b4). cbn [fst snd] in *.
      assert (hlt : (rtot v n (swap (k_med st) b j) < rtot v n (k_med st))%Q).
      { apply Qnot_le_lt. intros hle.
        assert (hx : lleb (k_loss st) nl = true); [|congruence]. apply lleb_spec. lra. }
      assert (hjm : ~ In j (k_med st)) by (apply improve_not_in with (b := b); auto).
      assert (hnd : NoDup (set_nth (k_med st) b j)) by (apply NoDup_set_nth; auto).
      assert (hlt0 := hlt). rewrite swap_set_nth in hlt by lia.
      split; [constructor; auto|]. split; [auto|]. split; [auto|]. right. cbn [k_med k_last k_swaps].
      split; [auto|]. split; [|split; [auto|split; [auto|split; [|split]]]].
      + destruct e6 as [j1 j2 _]. cbn [k_med] in *. apply hf; [split; auto|split; auto|apply rtot_lt; auto].
      + intros hni. exfalso. apply hni. cbn [k_med].
        rewrite <- (nth_set_nth_eq (k_med st) j 0 (i := b)) at 1 by lia. apply nth_In.
        rewrite length_set_nth. lia.
      + intros hni. specialize (hni hjm b b1). rewrite swap_set_nth in hni by lia. lra.
      + unfold sil_try. rewrite <- swap_set_nth by lia.
        apply eager_some with (f := rtot v n); auto; [apply sil_better_rtot; auto|lia| |].
        * intros c hc. rewrite i1 in hc. specialize (b3 c hc). lra.
        * intros c hc. specialize (b4 c hc). lra.
  Qed.

  Lemma k2_initial med : sizes n 2 -> medoids n 2 med ->
    exists loss assi data, initial_assignment_k2 (Lt := Lt) M med = Ok (loss, assi, data) /\
      forall la, k_good (mkK med assi data loss la 0 0).
  Proof.
    intros hs (hl & hnd & hin).
    pose proof (initial_k2_shape (Lt := Lt) HM hs hin hl) as h.
    apply oks_inv in h as ([[loss assi] data] & e & xs & ht & hr). cbn [fst snd] in *.
    exists loss, assi, data. split; [auto|]. intros la. constructor; [|auto]. constructor; cbn; eauto.
  Qed.

  Definition kinc (st : kst Nt Lt) : kst Nt Lt :=
    mkK (k_med st) (k_assi st) (k_data st) (k_loss st) (k_last st) (k_swaps st) (S (k_iter st)).

  Lemma kinc_good st : k_good st -> k_good (kinc st).
  Proof. intros [[] ?]. constructor; auto. constructor; auto. Qed.

  Lemma k2_run_ok maxiter f (st0 : kst Nt Lt) :
    1 <= n -> measure_ok3 n D 2 f -> k_good st0 ->
    k_swaps st0 = 0 -> k_iter st0 = 0 -> k_last st0 = n ->
    oks (whileM maxiter (k2_iteration M) st0)
        (first_result (seq 0 n) (@k_swaps Nt Lt) (@k_iter Nt Lt) (fun st => rtot v n (k_med st))
           k_good k_nonimp (fun st => f (k_med st)) (@k_med Nt Lt) (sil_try n D) kinc maxiter st0).
  Proof.
    intros hn hf hg0 hs hi hl.
    assert (E : forall st, k2_iteration M st = iteration (k2_cand M) (seq 0 n) (@k_swaps Nt Lt)
      kinc (fun st st' => lleb (k_loss st) (k_loss st')) st).
    { intros st. unfold k2_iteration, iteration, kinc. rewrite (len_n HM). auto. }
    assert (E2 : whileM maxiter (k2_iteration M) st0 = whileM maxiter (iteration (k2_cand M) (seq 0 n)
      (@k_swaps Nt Lt) kinc (fun st st' => lleb (k_loss st) (k_loss st'))) st0).
    { generalize st0. induction maxiter as [|m IH]; intros s; cbn [whileM]; [auto|].
      rewrite E. destruct (iteration _ _ _ _ _ s) as [[s'|s']|]; cbn [bind]; auto. }
    rewrite E2.
    apply first_improvement with (last := @k_last Nt Lt); auto.
    - apply seq_NoDup.
    - intros st hg. split; [apply kinc_good; auto|]. cbn. auto 10.
    - intros st st' hg hg' hlt. destruct (lleb (k_loss st) (k_loss st')) eqn:e; auto.
      apply lleb_spec in e. rewrite (kg_loss hg), (kg_loss hg') in e. lra.
    - intros st j hg hj hni. apply eager_none with (f := rtot v n); [apply sil_better_rtot; auto|].
      pose proof hg as [[i1 _ _] _]. rewrite i1. exact hni.
    - intros st j hg hj. apply in_seq in hj. apply k2_cand_spec; auto. lia.
    - intros hin. apply in_seq in hin. lia.
  Qed.

  Lemma fastermsc_k2_ok med maxiter (f : list nat -> nat) :
    sizes n (length med) -> medoids n (length med) med -> length med = 2 ->
    measure_ok3 n D 2 f ->
    oks (fastermsc (Lt := Lt) M med maxiter) (fun r =>
      msc_summary n D med maxiter r /\ r_swaps r + f (r_med r) <= f med /\
      (sil_optimal v n med -> 0 < maxiter -> r_swaps r = 0 /\ r_iter r = 1) /\
      (r_med r, r_swaps r, r_iter r) = eager_swaps (sil_better v n) (seq 0 n) med maxiter).
  Proof.
    intros hs hm hk hf. rewrite hk in hs, hm. assert (hn : 1 <= n) by (destruct hs; lia).
    unfold fastermsc. rewrite hk. cbn [Nat.eqb]. unfold fastermsc_k2. rewrite hk. cbn [Nat.eqb assertb bind].
    destruct (k2_initial hs hm) as (loss & assi & data & -> & hg0). cbn [bind].
    rewrite (len_n HM). specialize (hg0 n).
    eapply oks_bind; [apply k2_run_ok with (f := f); auto|].
    intros st h. cbn [oks]. destruct h as [h1 h2 h3 h4 h5 h6 h7 h8 h9 h10 h11]. cbn [k_med] in *.
    pose proof h1 as [[i1 i2 (xs & ht & hr)] g2].
    assert (hs' : sizes n (length (k_med st))) by (rewrite i1; auto).
    split; [|split; [exact h6|split; [|exact h11]]].
    2:{ intros hopt hmi. rewrite h10; auto. intros j hj hni b hb. apply in_seq in hj. cbn [k_med] in *.
        destruct hm as (m1 & m2 & m3). apply rtot_le; auto. apply hopt; auto; lia. }
    constructor; cbn [r_med r_assi r_loss r_swaps r_iter]; auto.
    - rewrite hk. split; auto.
    - apply ht.
    - intros o ho. apply kg_nearest; auto.
    - apply (to_silhouette_ok HD); auto. apply kg_loss; auto.
    - apply rtot_le; auto.
    - intros hp. apply rtot_lt; auto.
    - intros hend b j hb hj hni. rewrite i1 in hb. apply rtot_le; auto.
      destruct hend as [hlt|[hsw hmi]].
      + apply h8; auto. apply in_seq. lia.
      + apply h9; auto. apply in_seq. lia.
  Qed.

  (** ** fastmsc *)
  (** the choice of a swap: [None], or the best one, without its value *)
  Definition choice (med : list nat) (c : option (nat * nat)) : Prop :=
    exists g : Q, gbest (fun q : Q => q) (gain3 n D med) (length med) (fun j => ~ In j med) n (g, c).

  Lemma choice_unique med c1 c2 : choice med c1 -> choice med c2 -> c1 = c2.
  Proof. intros [g1 h1] [g2 h2]. destruct (gbest_unique h1 h2) as [h _]. exact h. Qed.

  Lemma best3_choice med (best : Lt * option (nat * nat)) : best3 n D med n best -> choice med (snd best).
  Proof.
    intros h. exists (vL (fst best)).
    destruct h as [(h1 & h2 & h3)|(b & j & h1 & h2)].
    - left. cbn [fst snd]. auto.
    - right. exists b, j. cbn [fst snd]. auto.
  Qed.

  Definition evald (st : kst Nt Lt) (j : nat) : Prop := ~ skipped st j.

  (** the candidate with the smallest loss so far *)
  Definition best2 (st : kst Nt Lt) (t : nat) (best : Lt * option (nat * nat)) : Prop :=
    match snd best with
    | None => fst best = lzero /\ forall j, j < t -> skipped st j
    | Some (b, j) => b < 2 /\ j < t /\ evald st j /\
        (vL (fst best) == rtot v n (swap (k_med st) b j))%Q /\
        (forall j' c, j' < t -> evald st j' -> c < 2 -> (vL (fst best) <= rtot v n (swap (k_med st) c j'))%Q) /\
        (forall j' c, j' < j -> evald st j' -> c < 2 -> (vL (fst best) < rtot v n (swap (k_med st) c j'))%Q) /\
        (forall c, c < b -> (vL (fst best) < rtot v n (swap (k_med st) c j))%Q)
    end.

  Lemma fastmsc_k2_cand_ok st best j :
    j < n -> k_good st -> best2 st j best -> oks (fastmsc_k2_cand M st best j) (best2 st (S j)).
  Proof.
    intros hj [[i1 i2 (xs & ht & hr)] hnd] hb. unfold fastmsc_k2_cand.
    destruct (tab2_get ht hj) as (a & d & x & ha & hd & hx & hobj).
    rewrite (idx_some _ _ ha). cbn [bind]. destruct hobj as (ha2 & _).
    rewrite idx_nth with (d := 0) by lia. cbn [bind].
    destruct (j =? nth a (k_med st) 0) eqn:e2.
    { apply Nat.eqb_eq in e2. cbn [oks].
      assert (hsk : skipped st j) by (unfold skipped; rewrite (nth_error_nth _ _ 0 ha); auto).
      unfold best2 in *. destruct (snd best) as [[b' j']|].
      - destruct hb as (q1 & q2 & q3 & q4 & q5 & q6 & q7).
        split; [auto|]. split; [lia|]. split; [auto|]. split; [auto|]. split; [|auto].
        intros j2 c hj2 hev hc. destruct (Nat.eq_dec j2 j) as [->|]; [contradiction|]. apply q5; auto. lia.
      - destruct hb as [hb1 hb2]. split; auto. intros j' hj'. destruct (Nat.eq_dec j' j) as [->|]; auto.
        apply hb2. lia. }
    apply Nat.eqb_neq in e2.
    assert (hev : evald st j) by (unfold evald, skipped; rewrite (nth_error_nth _ _ 0 ha); auto).
    pose proof (find_best_swap_k2_ok i1 i2 ht hj) as hf.
    apply oks_inv in hf as ([nl b] & -> & f1 & f2 & f3 & f4). cbn [bind oks fst snd] in *.
    unfold best2 in *. destruct (snd best) as [[b' j']|] eqn:es.
    - destruct hb as (q1 & q2 & q3 & q4 & q5 & q6 & q7).
      destruct (lltb nl (fst best)) eqn:el.
      + apply lltb_spec in el. cbn [fst snd]. split; [auto|]. split; [lia|]. split; [auto|]. split; [auto|].
        split; [|split; [|auto]].
        * intros j2 c hj2 hev2 hc. destruct (Nat.eq_dec j2 j) as [->|]; [auto|].
          specialize (q5 j2 c ltac:(lia) hev2 hc). lra.
        * intros j2 c hj2 hev2 hc. specialize (q5 j2 c hj2 hev2 hc). lra.
      + rewrite es. assert (hle : (vL (fst best) <= vL nl)%Q).
        { apply Qnot_lt_le. intros c. apply lltb_spec in c. congruence. }
        split; [auto|]. split; [lia|]. split; [auto|]. split; [auto|]. split; [|auto].
        intros j2 c hj2 hev2 hc. destruct (Nat.eq_dec j2 j) as [->|]; [specialize (f3 c hc); lra|].
        apply q5; auto. lia.
    - destruct hb as [hb1 hb2]. cbn [fst snd]. split; [auto|]. split; [lia|]. split; [auto|]. split; [auto|].
      split; [|split; [|auto]].
      + intros j2 c hj2 hev2 hc. destruct (Nat.eq_dec j2 j) as [->|]; [auto|].
        exfalso. apply hev2. apply hb2. lia.
      + intros j2 c hj2 hev2 hc. exfalso. apply hev2. apply hb2. lia.
  Qed.

  (** every object that is not a medoid is evaluated *)
  Lemma not_in_evald st j : k_good st -> j < n -> ~ In j (k_med st) -> evald st j.
  Proof.
    intros [[i1 i2 (xs & ht & hr)] _] hj hni hsk. apply hni. rewrite <- hsk. apply nth_In.
    destruct (tab2_get ht hj) as (a & d & x & ha & hd & hx & hobj).
    rewrite (nth_error_nth _ _ 0 ha). destruct hobj. lia.
  Qed.

  Lemma all_skipped_rtot st : k_good st -> (forall j, j < n -> skipped st j) ->
    (rtot v n (k_med st) == 0)%Q.
  Proof.
    intros hg hsk. pose proof hg as [[i1 i2 (xs & ht & hr)] hnd].
    unfold rtot. transitivity (sumQ (fun _ : nat => 0%Q) (seq 0 n)).
    - apply sumQ_ext. intros o ho. apply in_seq in ho. apply (near_ratio_self HD); auto; try lia.
      destruct (in_dec Nat.eq_dec o (k_med st)); auto. exfalso.
      apply (not_in_evald hg (j := o)); auto; try lia. apply hsk. lia.
    - clear. induction (seq 0 n); simpl; [reflexivity|]. rewrite IHl. lra.
  Qed.

  (** outcome of one iteration *)
  Definition kstep (st : kst Nt Lt) (c : ctl (kst Nt Lt)) : Prop :=
    match c with
    | Break s => choice (k_med st) None /\ s = kinc st
    | Next s => exists b j, choice (k_med st) (Some (b, j)) /\ b < 2 /\ j < n /\
        k_med s = set_nth (k_med st) b j /\ k_good s /\
        (rtot v n (k_med s) < rtot v n (k_med st))%Q /\
        k_swaps s = S (k_swaps st) /\ k_iter s = S (k_iter st)
    end.

  Lemma fastmsc_k2_iteration_ok st : 1 <= n -> k_good st -> oks (fastmsc_k2_iteration M st) (kstep st).
  Proof.
    intros hn hg. unfold fastmsc_k2_iteration. fold (kinc st). rewrite (len_n HM).
    pose proof (kinc_good hg) as hg1. pose proof (kg_loss hg1) as hloss.
    pose proof hg as [[i1 i2 (xs & ht & hr)] hnd].
    eapply oks_bind with (P := best2 (kinc st) n).
    - apply foldM_seq with (I := best2 (kinc st)).
      + split; auto. intros; lia.
      + intros j best hj hb. apply fastmsc_k2_cand_ok; auto.
    - intros best hb. cbn [kinc k_med k_loss k_assi k_data k_swaps k_iter k_last] in *.
      destruct (lltb (fst best) (k_loss st)) eqn:e; cbn [negb].
      + apply lltb_spec in e. unfold best2 in hb. destruct (snd best) as [[b j]|] eqn:es.
        * cbn [kinc k_med] in hb. destruct hb as (q1 & q2 & q3 & q4 & q5 & q6 & q7).
          assert (hlt : (rtot v n (swap (k_med st) b j) < rtot v n (k_med st))%Q) by lra.
          assert (hjm : ~ In j (k_med st)) by (apply improve_not_in with (b := b); auto).
          pose proof (do_swap_k2_shape (Lt := Lt) HM hn i1 ht q1 q2) as hs.
          apply oks_inv in hs as ([[[med' assi'] data'] loss'] & -> & -> & xs' & ht' & hr'). cbn [bind].
          assert (hi' : inr n (set_nth (k_med st) b j)) by (apply inr_set_nth; auto).
          assert (hl' : length (set_nth (k_med st) b j) = 2) by (rewrite length_set_nth; auto).
          pose proof (tab2_rtot hl' hi' ht' hr') as hloss'.
          assert (hlt' : (rtot v n (set_nth (k_med st) b j) < rtot v n (k_med st))%Q)
            by (rewrite swap_set_nth in hlt by lia; auto).
          assert (e2 : lltb loss' (k_loss st) = true) by (apply lltb_spec; lra).
          rewrite e2. cbn [negb oks kstep k_med k_swaps k_iter]. exists b, j.
          split; [|split; [auto|split; [auto|split; [auto|split; [|auto]]]]].
          -- exists (rtot v n (k_med st) - rtot v n (swap (k_med st) b j))%Q. right. exists b, j.
             cbn [fst snd]. unfold gain3. rewrite i1. split; [auto|]. split; [auto|]. split; [auto|].
             split; [auto|]. split; [reflexivity|]. split; [lra|].
             split; [|split].
             ++ intros j' c hj' hni hc. pose proof (not_in_evald hg1 (j := j') hj' hni) as hev.
                specialize (q5 j' c hj' hev hc). lra.
             ++ intros j' c hj' hni hc. pose proof (not_in_evald hg1 (j := j') ltac:(lia) hni) as hev.
                specialize (q6 j' c hj' hev hc). lra.
             ++ intros c hc. specialize (q7 c hc). lra.
          -- constructor; [constructor|]; cbn [k_med k_assi k_data k_loss]; eauto.
             apply NoDup_set_nth; auto.
        * destruct hb as [hb1 hb2]. pose proof (all_skipped_rtot hg1 hb2) as hz.
          cbn [kinc k_med] in hz. rewrite hb1, vL_zero in e. lra.
      + cbn [oks kstep]. split; [|auto]. exists 0%Q. left. cbn [fst snd]. split; [auto|]. split; [reflexivity|].
        intros j c hj hni hc. rewrite i1 in hc. pose proof (not_in_evald hg1 (j := j) hj hni) as hev.
        assert (hle : (rtot v n (k_med st) <= vL (fst best))%Q).
        { rewrite <- hloss. apply Qnot_lt_le. intros h. apply lltb_spec in h. congruence. }
        unfold best2 in hb. destruct (snd best) as [[b0 j0]|].
        * destruct hb as (q1 & q2 & q3 & q4 & q5 & _). cbn [kinc k_med] in q5.
          specialize (q5 j c hj hev hc). unfold gain3. lra.
        * destruct hb as [_ hb2]. exfalso. apply hev. apply hb2. auto.
  Qed.

  Lemma choice_none med : 1 <= n -> choice med None -> sil_optimal v n med.
  Proof.
    intros hn [g [(h1 & h2 & h3)|(b & j & h1 & _)]]; [|cbn in h1; congruence].
    intros b j hb hj hni. apply rtot_le; auto. specialize (h3 j b hj hni hb). unfold gain3 in h3. lra.
  Qed.

  Lemma choice_some med b j : 1 <= n -> choice med (Some (b, j)) ->
    b < length med /\ j < n /\ ~ In j med /\
    (med_sil v n med < med_sil v n (swap med b j))%Q /\
    forall b' j', b' < length med -> j' < n -> ~ In j' med ->
      (med_sil v n (swap med b' j') <= med_sil v n (swap med b j))%Q.
  Proof.
    intros hn [g [(h1 & _)|(b0 & j0 & h1 & h2 & h3 & h4 & h5 & h6 & h7 & _)]]; [cbn in h1; congruence|].
    cbn in h1. injection h1 as <- <-. split; [auto|]. split; [auto|]. split; [auto|]. unfold gain3 in *. split.
    - apply rtot_lt; auto. lra.
    - intros b' j' hb' hj' hni. apply rtot_le; auto. specialize (h7 j' b' hj' hni hb'). lra.
  Qed.

  Lemma choice_none_ref med : 1 <= n -> choice med None -> sil_best n D med = None.
  Proof.
    intros hn [g [(h1 & h2 & h3)|(b & j & h1 & _)]]; [|cbn in h1; congruence].
    apply steep_none with (f := rtot v n); [apply sil_better_rtot; auto|].
    intros b j hb hj hni. specialize (h3 j b hj hni hb). unfold gain3 in h3. lra.
  Qed.

  Lemma choice_some_ref med b j : 1 <= n -> choice med (Some (b, j)) ->
    sil_best n D med = Some (swap med b j).
  Proof.
    intros hn [g [(h1 & _)|(b0 & j0 & h1 & h2 & h3 & h4 & h5 & h6 & h7 & h8 & h9)]]; [cbn in h1; congruence|].
    cbn in h1. injection h1 as <- <-. unfold gain3 in *.
    apply steep_some with (f := rtot v n); auto.
    - apply sil_better_rtot; auto.
    - lra.
    - intros j' c hj' hjm' hc. specialize (h7 j' c hj' hjm' hc). lra.
    - intros j' c hj' hjm' hc. specialize (h8 j' c hj' hjm' hc). lra.
    - intros c hc. specialize (h9 c hc). lra.
  Qed.

  Lemma fastmsc_k2_ok med maxiter (f : list nat -> nat) :
    sizes n (length med) -> medoids n (length med) med -> length med = 2 ->
    measure_ok3 n D 2 f ->
    oks (fastmsc (Lt := Lt) M med maxiter) (fun r =>
      msc_summary n D med maxiter r /\ steep_end n D maxiter r /\ r_swaps r + f (r_med r) <= f med /\
      (r_med r, r_swaps r, r_iter r) = best_swaps (sil_better v n) n med maxiter).
  Proof.
    intros hs hm hk hf. rewrite hk in hs, hm. assert (hn : 1 <= n) by (destruct hs; lia).
    unfold fastmsc. rewrite hk. cbn [Nat.eqb]. unfold fastmsc_k2. rewrite hk. cbn [Nat.eqb assertb bind].
    destruct (k2_initial hs hm) as (loss & assi & data & -> & hg0). cbn [bind]. specialize (hg0 0).
    eapply oks_bind.
    - apply steepest with (swaps := @k_swaps Nt Lt) (iter := @k_iter Nt Lt)
        (obj := fun st => rtot v n (k_med st)) (good := k_good)
        (optimal := fun st => sil_optimal v n (k_med st))
        (mu := fun st => f (k_med st)) (core := @k_med Nt Lt) (bestf := sil_best n D); auto.
      intros st hg. eapply oks_mono; [apply fastmsc_k2_iteration_ok; auto|].
      intros [s|s].
      + intros (b & j & h1 & h2 & h3 & h4 & h5 & h6 & h7 & h8). split; [auto|]. split; [auto|].
        pose proof hg as [[i1 i2 _] g2]. destruct h5 as [[j1 j2 _] j3].
        split; [|split; [auto|split; [auto|]]].
        2:{ rewrite h4, <- swap_set_nth by lia. apply choice_some_ref; auto. }
        apply hf; [split; auto|split; auto|apply rtot_lt; auto].
      + intros [h1 ->]. cbn. split; [apply kinc_good; auto|]. split; [apply choice_none; auto|].
        pose proof (choice_none_ref hn h1). auto 10.
    - intros st [h1 h2 h3 h4 h5 h6 h7 h8]. cbn [oks k_med] in *.
      pose proof h1 as [[i1 i2 (xs & ht & hr)] g2].
      assert (hs' : sizes n (length (k_med st))) by (rewrite i1; auto).
      split; [|split; [exact h7|split; [exact h6|exact h8]]].
      constructor; cbn [r_med r_assi r_loss r_swaps r_iter]; auto.
      + rewrite hk. split; auto.
      + apply ht.
      + intros o ho. apply kg_nearest; auto.
      + apply (to_silhouette_ok HD); auto. apply kg_loss; auto.
      + apply rtot_le; auto.
      + intros hp. apply rtot_lt; auto.
      + lia.
      + intros hend. destruct h7 as [[_ h7]|[h7 h7']]; [auto|]. lia.
  Qed.

  (** ** fastmsc and pammedsil with two medoids make the same moves *)
  Definition qstep (st : mst Nt Lt) (c : ctl (mst Nt Lt)) : Prop :=
    match c with
    | Break s => choice (m_med st) None /\ m_med s = m_med st /\ m_swaps s = m_swaps st /\
                 m_iter s = S (m_iter st)
    | Next s => exists b j, choice (m_med st) (Some (b, j)) /\
        m_med s = set_nth (m_med st) b j /\ m_swaps s = S (m_swaps st) /\ m_iter s = S (m_iter st)
    end.

  Lemma swap_best3_choice k st rl (best : Lt * option (nat * nat)) :
    1 <= n -> 2 <= k -> q_good n D k st -> best3 n D (m_med st) n best ->
    oks (swap_best3 M (inc3 st) rl best) (qstep st).
  Proof.
    intros hn hk hg hb. pose proof (best3_choice hb) as hc.
    pose proof (swap_best3_ok HD rl hn hk (inc3_good hg) hb) as hok.
    unfold swap_best3 in *. cbn [inc3 m_med m_data m_loss m_last m_swaps m_iter] in *.
    destruct hb as [(h1 & h2 & h3)|(b & j & h1 & h2 & h3 & hjm & h4 & h5 & h6 & h7 & h8)].
    - assert (e : lltb lzero (fst best) = false).
      { destruct (lltb lzero (fst best)) eqn:e; auto. apply lltb_spec in e. rewrite vL_zero in e. lra. }
      rewrite e. cbn [oks qstep m_med m_swaps m_iter]. rewrite h1 in hc. auto.
    - assert (e : lltb lzero (fst best) = true) by (apply lltb_spec; rewrite vL_zero; lra).
      rewrite e, h1 in *. apply oks_inv in hok as (c & ec & hok). rewrite ec. cbn [oks].
      apply bind_ok in ec as ([[med' data'] loss'] & ed & ec).
      assert (hm' : med' = set_nth (m_med st) b j).
      { pose proof hg as [[i1 i2 i3] _ _ _]. assert (hk' : 2 <= length (m_med st)) by lia.
        pose proof (do_swap3_ok (Lt := Lt) HM hn i2 h3 h2 hk' i3) as hs.
        apply oks_elim with (2 := ed) in hs. apply hs. }
      destruct (lleb (m_loss st) loss'); injection ec as <-.
      + destruct hok as (_ & _ & ho & hmed & _ & _ & hsw & _). cbn [m_swaps] in hsw. cbn [inc3 m_swaps] in hsw. lia.
      + cbn [qstep m_med m_swaps m_iter]. exists b, j. auto.
  Qed.

  Lemma pms_iteration_choice k st : 1 <= n -> 2 <= k -> q_good n D k st ->
    oks (pms_iteration M st) (qstep st).
  Proof.
    intros hn hk hg. unfold pms_iteration. fold (inc3 st).
    eapply oks_bind; [apply (pms_best_ok HD hk (inc3_good hg))|]. intros best hb.
    apply swap_best3_choice with (k := k); auto.
  Qed.

  Lemma fastmsc_iteration_choice k st : 1 <= n -> 3 <= k -> q_good n D k st -> length (m_rl st) = k ->
    oks (fastmsc_iteration M st) (qstep st).
  Proof.
    intros hn hk hg hl. unfold fastmsc_iteration. fold (inc3 st).
    pose proof (fastmsc_best_ok HD hk (inc3_good hg) hl) as h.
    apply oks_inv in h as ([rl best] & e & h1 & h2). cbn [fst snd] in *.
    apply bind_ok in e as (rl' & e1 & e). apply bind_ok in e as (best' & e2 & e).
    injection e as -> ->. rewrite e1. cbn [bind]. rewrite e2. cbn [bind].
    assert (hk2 : 2 <= k) by lia.
    apply swap_best3_choice with (k := k); auto.
  Qed.

  Lemma runs2_same maxiter st1 st2 :
    1 <= n -> k_good st1 -> q_good n D 2 st2 ->
    k_med st1 = m_med st2 -> k_swaps st1 = m_swaps st2 -> k_iter st1 = m_iter st2 ->
    match whileM maxiter (fastmsc_k2_iteration M) st1, whileM maxiter (pms_iteration M) st2 with
    | Ok s1, Ok s2 => k_med s1 = m_med s2 /\ k_swaps s1 = m_swaps s2 /\ k_iter s1 = m_iter s2
    | _, _ => False
    end.
  Proof.
    intros hn. revert st1 st2. induction maxiter; intros st1 st2 hg1 hg2 e1 e2 e3; [cbn; auto|].
    cbn [whileM].
    pose proof (fastmsc_k2_iteration_ok hn hg1) as h1.
    pose proof (pms_iteration_choice hn (le_n 2) hg2) as h2.
    pose proof (pms_iteration_ok HD hn (le_n 2) hg2) as h3.
    apply oks_inv in h1 as (c1 & -> & h1). apply oks_inv in h2 as (c2 & ec2 & h2).
    rewrite ec2 in *. cbn [oks bind] in *.
    destruct c1 as [s1|s1]; destruct c2 as [s2|s2]; cbn [kstep qstep] in h1, h2.
    - destruct h1 as (b & j & a1 & a2 & a3 & a4 & a5 & a6 & a7 & a8).
      destruct h2 as (b' & j' & c1 & c2 & c3 & c4). rewrite e1 in a1.
      pose proof (choice_unique a1 c1) as ec. injection ec as <- <-.
      apply IHmaxiter; auto; try congruence. apply h3.
    - destruct h1 as (b & j & a1 & _). destruct h2 as (c1 & _). rewrite e1 in a1.
      pose proof (choice_unique a1 c1). congruence.
    - destruct h1 as (a1 & _). destruct h2 as (b' & j' & c1 & _). rewrite e1 in a1.
      pose proof (choice_unique a1 c1). congruence.
    - destruct h1 as (a1 & ->). destruct h2 as (_ & c2 & c3 & c4). cbn. split; [|split]; congruence.
  Qed.

  Lemma fastmsc_pammedsil_swap_k2 med maxiter :
    sizes n (length med) -> medoids n (length med) med -> length med = 2 ->
    exists r r', fastmsc (Lt := Lt) M med maxiter = Ok r /\ pammedsil_swap M med maxiter = Ok r' /\
      r_med r = r_med r' /\ r_iter r = r_iter r' /\ r_swaps r = r_swaps r' /\
      (vL (r_loss r) == vL (r_loss r'))%Q.
  Proof.
    intros hs hm hk. assert (hk2 : 2 <= length med) by lia.
    assert (hn : 1 <= n) by (destruct hs; lia).
    assert (hme : measure_ok3 n D 2 (better (fun m => 1 - med_sil v n m)%Q n 2)) by apply measure_better3.
    pose proof (fastmsc_k2_ok maxiter hs hm hk hme) as h1.
    rewrite <- hk in hme.
    pose proof (pammedsil_swap_ok HD maxiter hs hm hk2 hme) as h2.
    apply oks_inv in h1 as (r & e1 & h1 & _). apply oks_inv in h2 as (r' & e2 & h2 & _).
    exists r, r'. split; [auto|]. split; [auto|].
    assert (hsame : r_med r = r_med r' /\ r_iter r = r_iter r' /\ r_swaps r = r_swaps r').
    { pose proof hm as (_ & hnd & hin).
      unfold fastmsc in e1. rewrite hk in e1. cbn [Nat.eqb] in e1. unfold fastmsc_k2 in e1.
      rewrite hk in e1. cbn [Nat.eqb assertb bind] in e1.
      assert (hs2 : sizes n 2) by (rewrite <- hk; auto).
      assert (hm2 : medoids n 2 med) by (rewrite <- hk; auto).
      destruct (k2_initial hs2 hm2) as (loss & assi & data & ei & hg0). rewrite ei in e1. cbn [bind] in e1.
      unfold pammedsil_swap, pammedsil_optimize in e2. rewrite hk in e2. cbn [Nat.eqb] in e2.
      pose proof (emb_vals HD) as [he hdg].
      pose proof (initial_assignment3_ok (Lt := Lt) HM True hs hin hk2) as h.
      apply oks_inv in h as ([loss3 data3] & ei3 & hd & hsum & hown). rewrite ei3 in e2. cbn [bind fst snd] in *.
      assert (hg3 : q_good n D 2 (mkM med data3 [] loss3 0 0 0)).
      { constructor; cbn; auto.
        - constructor; auto.
        - eauto.
        - apply (ratio_sum_rtot HD hin hd hsum). }
      pose proof (@runs2_same maxiter _ _ hn (hg0 0) hg3 eq_refl eq_refl eq_refl) as hr.
      destruct (whileM maxiter (fastmsc_k2_iteration M) _) as [s1|]; [|contradiction].
      destruct (whileM maxiter (pms_iteration M) _) as [s2|]; [|contradiction].
      cbn [bind] in *. injection e1 as <-. injection e2 as <-. cbn. destruct hr as (q1 & q2 & q3). auto. }
    destruct hsame as (s1 & s2 & s3). split; [auto|]. split; [auto|]. split; [auto|].
    rewrite (ms_value h1), (ms_value h2), s1. reflexivity.
  Qed.
End Exact.
