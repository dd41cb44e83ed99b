(** CostMore2.v -- how many entries of the matrix PAMSIL, DynMSC and the parallel FasterPAM read. *)
From Coq Require Import Lia Permutation.
From Verif Require Import Base Num M_Mat M_Util M_Fasterpam M_Pam M_Alternating M_Silhouette M_Msc M_Pammedsil M_Pamsil
  M_Dynmsc M_ParFasterpam M_Cost M_Cost2 Hoare Spec SilFacts ParFacts CostFacts CostBounds CostExact CostMore.
Set Implicit Arguments.

Lemma cok_map_nth A B (f : A -> cres B) (Q : A -> B -> Prop) l :
  (forall a, cok (f a) (fun _ b => Q a b)) ->
  cok (cmapM f l) (fun _ r => forall i a, nth_error l i = Some a -> exists b, nth_error r i = Some b /\ Q a b).
Proof.
  intros h. induction l as [|a l IH]; cbn [cmapM].
  - apply cok_ret. intros i a e. destruct i; discriminate.
  - eapply cok_bind; [apply h|]. intros c b hb. eapply cok_bind; [apply IH|]. intros c' r hr. apply cok_ret.
    intros [|i] x e; cbn in e.
    + injection e as <-. exists b. auto.
    + apply hr in e. exact e.
Qed.

(** a fold over [seq] whose invariant depends on the position, with bounds for every step *)
Lemma cok_fold_seq S (f : S -> nat -> cres S) (I : nat -> S -> Prop) (lo up : nat -> nat) m t s :
  I t s -> (forall i s, t <= i < t + m -> I i s -> cok (f s i) (fun c s' => lo i <= c <= up i /\ I (Datatypes.S i) s')) ->
  cok (cfoldM f (seq t m) s) (fun c s' => list_sum (map lo (seq t m)) <= c <= list_sum (map up (seq t m)) /\ I (t + m) s').
Proof.
  revert t s. induction m as [|m IH]; intros t s hi h; cbn [seq cfoldM map].
  - apply cok_ret. rewrite Nat.add_0_r. split; [cbn; lia|auto].
  - eapply cok_bind; [apply h; [lia|auto]|]. intros c s' [hc hi'].
    eapply cok_mono; [apply IH; [exact hi'|intros; apply h; [lia|auto]]|].
    cbv beta. intros c' s'' [hc' hi'']. rewrite Nat.add_succ_r. split; [|auto].
    change (list_sum (lo t :: map lo (seq (Datatypes.S t) m))) with (lo t + list_sum (map lo (seq (Datatypes.S t) m))).
    change (list_sum (up t :: map up (seq (Datatypes.S t) m))) with (up t + list_sum (map up (seq (Datatypes.S t) m))). lia.
Qed.

(** at least [n - k] objects are no medoids *)
Lemma sum_out_le n (med : list nat) w : (forall m, In m med -> m < n) ->
  w * (n - length med) <= list_sum (map (fun j => if in_dec Nat.eq_dec j med then 0 else w) (seq 0 n)).
Proof.
  intros hin. pose proof (nodup_In Nat.eq_dec med) as hi.
  assert (hl : length (nodup Nat.eq_dec med) <= length med).
  { apply NoDup_incl_length; [apply NoDup_nodup|]. intros x hx. apply hi. auto. }
  assert (e := @sum_out n _ (nodup Nat.eq_dec med) w eq_refl (NoDup_nodup _ _) ltac:(intros m hm; apply hin, hi; auto)).
  rewrite map_ext with (g := fun j => if in_dec Nat.eq_dec j (nodup Nat.eq_dec med) then 0 else w).
  - rewrite e. apply Nat.mul_le_mono_l. lia.
  - intros j. destruct (in_dec Nat.eq_dec j med) as [h|h], (in_dec Nat.eq_dec j (nodup Nat.eq_dec med)) as [h'|h']; auto;
      exfalso; rewrite hi in h'; tauto.
Qed.

(** ** PAMSIL *)
Section Pamsil.
  Context {Nt Lt : Type} `{HNN : NumN Nt} `{HNL : NumL Lt} `{HFN : FromN Nt Lt}.
  Variable M : Mat Nt.
  Notation n := (mlen M).

  (** the second medoid is not assigned to the first, whatever the numbers *)
  Lemma an_obj_second med fc i : nth_error med 1 = Some i ->
    cok (an_obj_n (Lt := Lt) M med fc i) (fun _ p => 1 <= fst p).
  Proof.
    intros h1. destruct med as [|a [|x l]]; try discriminate. injection h1 as ->. unfold an_obj_n.
    eapply cok_bind; [apply cok_true|]. intros _ d0 _. cbn [enum length seq combine skipn cfoldM].
    eapply cok_bind with (P := fun _ b => 1 <= fst b).
    - eapply cok_bind with (P := fun _ b => 1 <= fst b).
      + eapply cok_bind; [apply cok_true|]. intros _ d _. rewrite Nat.eqb_refl, Bool.orb_true_r. apply cok_ret. cbn. lia.
      + intros _ b hb. eapply cok_mono with (P := fun _ s => True /\ 1 <= fst s); [|tauto].
        assert (G : forall l' (b : nat * Nt), 1 <= fst b -> (forall p, In p l' -> 1 <= fst p) ->
          cok (cfoldM (fun (best : nat * Nt) '(m, mm) => cbind (cget M i mm)
             (fun dm => cret (if nltb dm (snd best) || (i =? mm) then (m, dm) else best))) l' b) (fun _ s => True /\ 1 <= fst s)).
        { induction l' as [|[m mm] l' IH]; intros b' hb' hl; cbn [cfoldM].
          - apply cok_ret. auto.
          - eapply cok_bind with (P := fun _ s => 1 <= fst s).
            + eapply cok_bind; [apply cok_true|]. intros _ d _. apply cok_ret.
              destruct (nltb d (snd b') || (i =? mm)); [apply (hl (m, mm)); simpl; auto|auto].
            + intros _ s hs. apply IH; [auto|]. intros p hp. apply hl. simpl. auto. }
        apply G; [exact hb|]. intros [m mm] hp. apply in_combine_l, in_seq in hp. cbn [fst]. lia.
    - intros _ b hb. apply cok_ret. exact hb.
  Qed.

  Lemma assign_label med : 2 <= length med -> (forall m, In m med -> m < n) ->
    cok (assign_nearest_n (Lt := Lt) M med) (fun c p => c = n * length med /\ length (snd p) = n /\ width (snd p) <> 1).
  Proof.
    intros hk hin. eapply cok_mono with (P := fun c p => (c = n * length med /\ length (snd p) = n) /\ width (snd p) <> 1);
      [|tauto]. apply cok_and; [apply assign_cost|].
    unfold assign_nearest_n. eapply cok_bind; [apply cok_true|]. intros _ u _.
    eapply cok_bind; [apply cok_true|]. intros _ fc _.
    eapply cok_bind.
    - apply cok_map_nth with (Q := fun i p => nth_error med 1 = Some i -> 1 <= fst p).
      intros i a e h1. eapply an_obj_second; eauto.
    - cbv beta. intros _ rs hr. apply cok_ret. cbn [snd]. intros hw. apply width_one in hw as [_ hw].
      destruct (nth_error med 1) as [x|] eqn:ex; [|apply nth_error_None in ex; lia].
      assert (hx : x < n) by (apply hin; eapply nth_error_In; eauto).
      destruct (hr x x) as (b & hb & hb1).
      { rewrite nth_error_nth' with (d := 0) by (rewrite seq_length; auto). rewrite seq_nth by auto. auto. }
      specialize (hb1 eq_refl). assert (h0 : fst b = 0).
      { apply hw. apply in_map. eapply nth_error_In; eauto. }
      lia.
  Qed.

  (** one evaluation: assign all objects, then compute the Silhouette *)
  Definition eval (k : nat) : nat := n * k + n * (n - 1).

  Section Search.
    Variable med : list nat.
    Variable k : nat.
    Hypothesis hk : 2 <= k.
    Hypothesis hl : length med = k.
    Hypothesis hin : forall x, In x med -> x < n.

    (** the best swap so far takes in an object of the data *)
    Definition best_in (st : psst Lt) : Prop := forall b j, snd (ps_best st) = Some (b, j) -> j < n.

    (** position [m], before candidate [t]: the medoids are [med], perhaps with an earlier candidate at [m] *)
    Definition at_pos (m t : nat) (st : psst Lt) : Prop :=
      (ps_med st = med \/ exists x, x < t /\ x < n /\ ps_med st = set_nth med m x) /\ best_in st.

    Lemma set_twice (l : list nat) b x j : set_nth (set_nth l b x) b j = set_nth l b j.
    Proof. clear. revert b. induction l as [|a l IH]; intros [|b]; cbn; auto. f_equal. apply IH. Qed.

    Lemma pos_set m t st j : at_pos m t st -> set_nth (ps_med st) m j = set_nth med m j.
    Proof. intros [[->|(x & _ & _ & ->)] _]; [auto|]. apply set_twice. Qed.

    Lemma pamsil_cand_cost m medm st j : j < n -> at_pos m j st -> In medm med ->
      cok (pamsil_cand_n (Lt := Lt) M m medm st j) (fun c st' =>
        (if in_dec Nat.eq_dec j med then 0 else eval k) <= c <= (if j =? medm then 0 else 1) * eval k /\ at_pos m (S j) st').
    Proof.
      intros hj hp hmm. unfold pamsil_cand_n.
      assert (hst : at_pos m (S j) st).
      { destruct hp as [[hp|(x & x1 & x2 & x3)] hb]; (split; [|auto]); [left; auto|right; exists x; split; [lia|auto]]. }
      destruct (Nat.eqb_spec j medm) as [->|hne].
      { apply cok_ret. destruct (in_dec Nat.eq_dec medm med); [|tauto]. split; [lia|auto]. }
      eapply cok_bind; [apply cok_idx|]. intros c aj [-> haj].
      eapply cok_bind; [apply cok_idx|]. intros c mj [-> hmj].
      destruct (Nat.eqb_spec j mj) as [e|_].
      { apply cok_ret. split; [|auto]. subst mj. apply nth_error_In in hmj.
        assert (hjm : In j med).
        { destruct hp as [[hp|(x & x1 & x2 & x3)] _]; [congruence|]. rewrite x3 in hmj.
          apply set_nth_In in hmj as [->|hmj]; [lia|auto]. }
        destruct (in_dec Nat.eq_dec j med); [lia|tauto]. }
      eapply cok_bind; [apply cok_lift with (Q := fun c a => c = 0 /\ a = set_nth med m j)|].
      { unfold upd. intros a. destruct (m <? length (ps_med st)); [|discriminate]. intros e. injection e as <-.
        split; [auto|]. eapply pos_set; eauto. }
      intros c med' [-> ->].
      assert (hl' : length (set_nth med m j) = k) by (rewrite length_set_nth; auto).
      eapply cok_bind; [apply assign_label; [lia|]|].
      { intros x hx. apply set_nth_In in hx as [->|hx]; auto. }
      intros c [loss assi'] (-> & ha & hw). cbn [snd] in ha, hw.
      eapply cok_bind; [apply silhouette_cost_exact|]. intros c [sil vec] ->.
      destruct (Nat.eqb_spec (width assi') 1) as [hw1|_]; [tauto|]. rewrite ha, hl'.
      assert (hx : exists x, x < S j /\ x < n /\ set_nth med m j = set_nth med m x) by (exists j; split; [lia|auto]).
      assert (hc : forall c', c' = n * k + (n * (n - 1) + 0) ->
        (if in_dec Nat.eq_dec j med then 0 else eval k) <= c' <= 1 * eval k).
      { intros c' ->. rewrite Nat.add_0_r. change (n * k + n * (n - 1)) with (eval k).
        destruct (in_dec Nat.eq_dec j med); lia. }
      destruct (lleb sil (fst (ps_best st))); apply cok_ret; (split; [apply hc; reflexivity|]); split; cbn [ps_med]; auto.
      - apply hp.
      - intros b' j' e. cbn in e. injection e as <- <-. auto.
    Qed.

    Lemma pamsil_pos_cost m st : m < k -> ps_med st = med -> best_in st ->
      cok (pamsil_pos_n (Lt := Lt) M st m) (fun c st' =>
        eval k * (n - k) <= c <= eval k * (n - 1) /\ ps_med st' = med /\ best_in st').
    Proof.
      intros hm e hb. unfold pamsil_pos_n. rewrite e. eapply cok_bind; [apply cok_idx|]. intros c medm [-> hmm].
      pose proof (nth_error_In _ _ hmm) as hmi. pose proof (hin _ hmi) as hmn.
      eapply cok_bind.
      - apply cok_fold_seq with (I := at_pos m) (lo := fun j => if in_dec Nat.eq_dec j med then 0 else eval k)
          (up := fun j => (if j =? medm then 0 else 1) * eval k); [split; [left; auto|auto]|].
        intros j s hj hp. apply pamsil_cand_cost; auto. lia.
      - cbv beta. intros c s [hc hp].
        assert (hlo : eval k * (n - k) <= list_sum (map (fun j => if in_dec Nat.eq_dec j med then 0 else eval k) (seq 0 n))).
        { rewrite <- hl at 2. apply sum_out_le. auto. }
        assert (hup : list_sum (map (fun j => (if j =? medm then 0 else 1) * eval k) (seq 0 n)) = eval k * (n - 1)).
        { rewrite <- (@sum_but n 0 medm) by lia. generalize (eval k). intros w. clear. induction (seq 0 n) as [|a l IH]; [cbn; lia|].
          cbn. unfold list_sum in *. destruct (a =? medm); lia. }
        eapply cok_bind; [apply cok_lift with (Q := fun c a => c = 0 /\ a = med)|].
        { unfold upd. intros a. destruct (m <? length (ps_med s)); [|discriminate]. intros e'. injection e' as <-.
          split; [auto|]. rewrite (pos_set medm hp).
          apply nth_error_nth with (d := 0) in hmm. rewrite <- hmm. apply set_nth_same. }
        intros c' med' [-> ->]. apply cok_ret. cbn [ps_med]. split; [lia|]. split; [auto|]. exact (proj2 hp).
    Qed.

    Lemma pamsil_search_cost assi : cok (cfoldM (pamsil_pos_n (Lt := Lt) M) (seq 0 k) (mkPs med assi (lzero, None))) (fun c st =>
      k * (eval k * (n - k)) <= c <= k * (eval k * (n - 1)) /\ ps_med st = med /\ best_in st).
    Proof.
      eapply cok_mono.
      - apply cok_fold_seq with (I := fun _ st => ps_med st = med /\ best_in st) (lo := fun _ => eval k * (n - k))
          (up := fun _ => eval k * (n - 1)).
        + split; [auto|]. intros b j e. discriminate.
        + intros m s hm [e hb]. apply pamsil_pos_cost; [lia|auto|auto].
      - cbv beta. intros c s [hc e]. rewrite !list_sum_const, seq_length in hc. split; [lia|auto].
    Qed.
  End Search.

  Definition pl_ok (k : nat) (st : pslst Lt) : Prop := length (pl_med st) = k /\ forall x, In x (pl_med st) -> x < n.

  Lemma pamsil_optimize_cost med assi maxiter : 2 <= length med -> (forall x, In x med -> x < n) ->
    let k := length med in
    cok (pamsil_optimize_n (Lt := Lt) M med assi maxiter) (fun c r =>
      let start := (if width assi =? 1 then length assi - 1 else length assi * (length assi - 1)) + n * k in
      start + k * (eval k * (n - k)) * r_iter r <= c <= start + k * (eval k * (n - 1)) * r_iter r).
  Proof.
    intros hk hin k. unfold pamsil_optimize_n. destruct (Nat.eqb_spec (length med) 1) as [|_]; [lia|].
    eapply cok_bind; [apply silhouette_cost_exact|]. intros c0 [sil vec] ->.
    eapply cok_bind.
    - apply cok_while with (I := pl_ok k) (lo := fun s : pslst Lt => k * (eval k * (n - k)) * pl_iter s)
        (up := fun s : pslst Lt => k * (eval k * (n - 1)) * pl_iter s).
      + split; auto.
      + intros st [h1 h2]. unfold pamsil_iteration_n. rewrite h1.
        eapply cok_bind; [apply pamsil_search_cost; auto|]. intros c s (hc & hm & hb).
        assert (G : forall x, pl_iter x = S (pl_iter st) ->
          within (fun s : pslst Lt => k * (eval k * (n - k)) * pl_iter s)
            (fun s : pslst Lt => k * (eval k * (n - 1)) * pl_iter s) c st x).
        { intros x e. unfold within. rewrite e. nia. }
        destruct (lleb (fst (ps_best s)) (pl_sil st)).
        * apply cok_ret. cbn [state]. rewrite Nat.add_0_r. split; [split; cbn [pl_med]; rewrite hm; auto|apply G; auto].
        * destruct (snd (ps_best s)) as [[b j]|] eqn:eb; [|apply cok_panic].
          eapply cok_bind; [apply cok_lift with (Q := fun c a => c = 0 /\ a = set_nth (pl_med st) b j)|].
          { unfold upd. rewrite hm. intros a. destruct (b <? length (pl_med st)); [|discriminate]. intros e. injection e as <-. auto. }
          intros c' med' [-> ->]. apply cok_ret. cbn [state]. rewrite !Nat.add_0_r. split; [|apply G; auto].
          split; cbn [pl_med]; [rewrite length_set_nth; auto|]. intros x hx.
          apply set_nth_In in hx as [->|hx]; [|auto]. apply (hb b j eb).
    - cbv beta. intros c st [[h1 h2] [h3 h4]]. cbn [pl_iter] in h3, h4. rewrite !Nat.mul_0_r, !Nat.add_0_r in *.
      eapply cok_bind; [apply assign_cost|]. intros c' [loss assi'] [-> _]. apply cok_ret. cbn [r_iter]. rewrite h1. cbv zeta. lia.
  Qed.

  Lemma pamsil_swap_cost med maxiter : 2 <= length med -> (forall x, In x med -> x < n) ->
    let k := length med in
    cok (pamsil_swap_n (Lt := Lt) M med maxiter) (fun c r =>
      n * k + eval k + k * (eval k * (n - k)) * r_iter r <= c <= n * k + eval k + k * (eval k * (n - 1)) * r_iter r).
  Proof.
    intros hk hin k. unfold pamsil_swap_n. eapply cok_bind; [apply assign_label; auto|].
    intros c [loss assi] (-> & ha & hw). cbn [snd] in ha, hw.
    eapply cok_mono; [apply pamsil_optimize_cost; auto|]. cbv zeta. intros c r.
    destruct (Nat.eqb_spec (width assi) 1) as [|_]; [tauto|]. rewrite ha. unfold k. intros h. unfold eval at 1 3. lia.
  Qed.

  Lemma pamsil_cost k maxiter : 2 <= k -> 1 <= n ->
    cok (pamsil_n (Lt := Lt) M k maxiter) (fun c r =>
      let start := n * n + (k - 1) * (n * n - 1) + (n - 1) + n * k in
      start + k * (eval k * (n - k)) * r_iter r <= c <= start + k * (eval k * (n - 1)) * r_iter r).
  Proof.
    intros hk hn. unfold pamsil_n. eapply cok_bind; [apply cok_lift with (Q := fun c _ => c = 0); auto|]. intros c u ->.
    eapply cok_bind; [apply pamsil_build_exact; lia|]. intros c meds (hl & hin & ->).
    eapply cok_mono; [apply pamsil_optimize_cost; [lia|auto]|]. cbv zeta. rewrite hl, repeat_length. intros c r.
    assert (hw : width (repeat 0 n) = 1).
    { apply width_one. split; [destruct n; [lia|discriminate]|]. intros a ha. apply repeat_spec in ha. auto. }
    rewrite hw. cbn [Nat.eqb]. lia.
  Qed.
End Pamsil.

(** ** DynMSC *)
Section Dyn.
  Context {Nt Lt : Type} `{HNN : NumN Nt} `{HNL : NumL Lt} `{HFN : FromN Nt Lt}.
  Variable M : Mat Nt.
  Notation n := (mlen M).

  Lemma without_new_cost med x y b o :
    cok (update_third_nearest_without_new_n M med x y b o) (fun c _ => c <= length med).
  Proof.
    unfold update_third_nearest_without_new_n. eapply cok_mono.
    - apply cok_fold_le with (I := fun _ => True) (w := fun _ => 1); auto.
      intros [i mi] s _ _. destruct ((i =? x) || (i =? y)); [apply cok_ret; auto|]. apply cok_get1. auto.
    - intros c r [hc _]. rewrite list_sum_const, length_enum in hc. lia.
  Qed.

  Lemma remove_med_cost med data b : 1 <= length med ->
    cok (remove_med_n (Lt := Lt) M med data b) (fun c r =>
      c <= length data * (length med - 1) /\ length (fst (fst r)) = length med - 1 /\ length (snd (fst r)) = length data).
  Proof.
    intros hk. unfold remove_med_n. cbv zeta.
    eapply cok_bind; [apply cok_lift with (Q := fun c _ => c = 0); auto|]. intros c u ->.
    eapply cok_bind; [apply cok_lift with (Q := fun c _ => c = 0); auto|]. intros c ml ->.
    eapply cok_bind; [apply cok_lift with (Q := fun c a => c = 0 /\ length a = length med)|].
    { unfold upd. intros a. destruct (b <? length med); [|discriminate]. intros e. injection e as <-. rewrite length_set_nth. auto. }
    intros c med1 [-> hl]. assert (hf : length (firstn (length med - 1) med1) = length med - 1) by (rewrite firstn_length; lia).
    eapply cok_bind.
    - apply cok_map_le with (w := fun _ => length med - 1). intros [o reco] _. unfold remove_med_obj_n. cbv zeta.
      eapply cok_bind with (P := fun c _ => c <= length med - 1).
      + assert (G : forall x y (f : dpair Nt -> Reco Nt),
          cok (cbind (update_third_nearest_without_new_n M (firstn (length med - 1) med1) x y b o) (fun t => cret (f t)))
            (fun c _ => c <= length med - 1)).
        { intros x y f. eapply cok_bind; [apply without_new_cost|]. intros c s hc. apply cok_ret. cbv beta in *. lia. }
        repeat match goal with
        | |- cok (cret _) _ => apply cok_ret; lia
        | |- cok (cbind _ _) _ => apply G
        | |- cok (if ?b then _ else _) _ => destruct b
        end.
      + intros c r hc. apply cok_ret. cbv beta in *. lia.
    - cbv beta. intros c rs [hc hlr]. eapply cok_bind; [apply cok_lift with (Q := fun c _ => c = 0); auto|].
      intros c' loss ->. apply cok_ret. cbn [fst snd]. rewrite map_length, hlr, length_enum.
      rewrite list_sum_const, length_enum in hc. split; [nia|auto].
  Qed.

  (** the medoids left and the records *)
  Definition y_ok (k : nat) (st : dst Nt Lt) : Prop := length (y_med st) <= k /\ 2 <= length (y_med st) /\ length (y_data st) = n.

  Lemma dyn_round_cost k mk maxiter (st : dst Nt Lt) : y_ok k st ->
    cok (dyn_round_n M mk maxiter st) (fun c x => y_ok k (state x) /\
      within (fun _ => 0) (fun s : dst Nt Lt => n * k * y_swaps s + n * n * y_iter s + n * k * (k - length (y_med s))) c st (state x)).
  Proof.
    intros (h1 & h2 & h3). unfold dyn_round_n. cbv zeta.
    destruct (Nat.leb_spec 3 (length (y_med st))) as [h4|h4]; cbn [negb andb].
    2:{ apply cok_ret. cbn [state]. split; [split; auto|]. unfold within. lia. }
    destruct (mk <=? length (y_med st)); cbn [negb].
    2:{ apply cok_ret. cbn [state]. split; [split; auto|]. unfold within. lia. }
    eapply cok_bind; [apply cok_lift with (Q := fun c _ => c = 0); auto|]. intros c rl ->.
    eapply cok_bind.
    - apply cok_while with (I := m_len M (length (y_med st))) (lo := fun _ => 0)
        (up := fun s : mst Nt Lt => n * length (y_med st) * m_swaps s + n * n * m_iter s).
      + split; auto.
      + intros s hs. apply msc_iteration_cost. auto.
    - cbv beta. intros c s [[g1 g2] [_ hc]]. cbn [m_swaps m_iter] in hc.
      eapply cok_bind; [apply cok_lift with (Q := fun c _ => c = 0); auto|]. intros c' losses ->.
      destruct (snd (min_removal (m_rl s))) as [b|]; [|apply cok_panic].
      eapply cok_bind; [apply remove_med_cost; lia|]. intros c' [[med' data'] loss'] (hc' & e1 & e2). cbn [fst snd] in *.
      apply cok_ret. cbn [state]. rewrite g1 in *. rewrite g2 in *. split.
      + split; cbn [y_med y_data]; [lia|]. split; [lia|auto].
      + unfold within. cbn [y_med y_swaps y_iter]. rewrite e1. split; [lia|].
        destruct (Nat.le_exists_sub _ _ h1) as (d & hd & _). rewrite hd in *.
        replace (d + length (y_med st) - (length (y_med st) - 1)) with (d + 1) by lia.
        replace (d + length (y_med st) - length (y_med st)) with d by lia.
        revert hc hc'. generalize (length (y_med st)) (m_swaps s) (m_iter s). intros l sw it hc hc'.
        assert (n * (l - 1) <= n * (d + l)) by (apply Nat.mul_le_mono_l; lia).
        assert (n * l * sw <= n * (d + l) * sw) by (apply Nat.mul_le_mono_r, Nat.mul_le_mono_l; lia). nia.
  Qed.

  Lemma dynmsc_cost med mink maxiter : 2 <= length med -> let k := length med in
    cok (dynmsc_n (Lt := Lt) M med mink maxiter) (fun c r =>
      n * k <= c <= n * k * (k + r_swaps (d_res r)) + n * n * r_iter (d_res r)).
  Proof.
    intros hk k. unfold dynmsc_n. cbv zeta. fold k. destruct (Nat.eqb_spec k 1) as [|_]; [unfold k in *; lia|].
    eapply cok_bind; [apply initial3_cost|]. intros c [loss data] (-> & hd & _). cbn [snd] in hd. fold k.
    eapply cok_bind.
    - apply cok_while with (I := y_ok k) (lo := fun _ => 0)
        (up := fun s : dst Nt Lt => n * k * y_swaps s + n * n * y_iter s + n * k * (k - length (y_med s))).
      + split; [auto|]. split; auto.
      + intros s hs. apply dyn_round_cost. auto.
    - cbv beta. intros c st [(h1 & h2 & h3) [_ hc]]. cbn [y_swaps y_iter y_med] in hc. fold k in hc.
      rewrite Nat.sub_diag, !Nat.mul_0_r, !Nat.add_0_r in hc.
      eapply cok_bind with (P := fun c' s => c + c' <= n * k * (k - 2) + n * 2 + n * k * y_swaps s + n * n * y_iter s).
      + assert (hr : n * k * (k - length (y_med st)) <= n * k * (k - 2)) by (apply Nat.mul_le_mono_l; lia).
        destruct (Nat.min (Nat.max mink 1) k <=? 2).
        * eapply cok_bind; [apply fastermsc_k2_cost|]. intros c' r [_ hc'].
          eapply cok_bind; [apply cok_lift with (Q := fun c _ => c = 0); auto|]. intros c'' losses ->.
          apply cok_ret. cbn [y_swaps y_iter]. unfold k in *. nia.
        * apply cok_ret. lia.
      + cbv beta. intros c' s hc'. eapply cok_bind; [apply cok_lift with (Q := fun c _ => c = 0); auto|]. intros c'' losses ->.
        apply cok_ret. cbn [d_res r_swaps r_iter].
        assert (hk2 : n * k * (k - 2) + n * 2 + n * k <= n * k * k).
        { unfold k in *. destruct (Nat.le_exists_sub _ _ hk) as (d & e & _). rewrite e. replace (d + 2 - 2) with d by lia. nia. }
        split; [lia|]. rewrite Nat.mul_add_distr_l. lia.
  Qed.
End Dyn.

(** ** parallel FasterPAM *)
Section Par.
  Context {Nt Lt : Type} `{HNN : NumN Nt} `{HNL : NumL Lt} `{HFN : FromN Nt Lt}.
  Variable M : Mat Nt.
  Notation n := (mlen M).

  Lemma par_initial_cost t med : cok (par_initial_assignment_n (Lt := Lt) M t med) (fun c p =>
    c = n * length med /\ length (snd p) = n).
  Proof.
    unfold par_initial_assignment_n. eapply cok_bind; [apply cok_lift with (Q := fun c _ => c = 0); auto|]. intros c u ->.
    eapply cok_bind; [apply cok_lift with (Q := fun c _ => c = 0 /\ 1 <= length med)|].
    { unfold idx. intros a. destruct med; [discriminate|]. cbn. split; [auto|lia]. }
    intros c fc [-> hk]. eapply cok_bind; [apply cok_map; intros a _; apply ia_obj_cost|].
    intros c rs [-> hl]. eapply cok_bind; [apply cok_lift with (Q := fun c _ => c = 0); auto|].
    intros c loss ->. apply cok_ret. rewrite list_sum_const, seq_length. cbn [snd]. rewrite map_length, hl, seq_length. nia.
  Qed.

  Lemma par_task_cost l data j st x : length data = n ->
    cok (par_task_n (Lt := Lt) M l data j st x) (fun c _ => c = length (chunk st (enum data) x)).
  Proof.
    intros hl. unfold par_task_n. cbv zeta. eapply cok_mono.
    - apply cok_fold with (I := fun _ => True) (w := fun _ => 1); auto.
      intros [o reco] [pl acc] _ _. unfold fbs_step_n.
      eapply cok_bind; [apply cok_get with (Q := fun c _ => c = 1); auto|]. intros c d ->.
      destruct (nltb d (dd (near reco))); [|destruct (nltb d (dd (seco reco)))].
      1,2: eapply cok_bind; [apply cok_lift with (Q := fun c _ => c = 0); auto|]; intros c l' ->; apply cok_ret; auto.
      apply cok_ret. auto.
    - intros c r [-> _]. rewrite list_sum_const. unfold chunk. rewrite length_enum, hl. lia.
  Qed.

  (** all tasks together read one entry for every object, however many there are and in whatever order they finish *)
  Lemma par_find_best_swap_cost s (rl : list Lt) data j : sched_ok s -> length data = n ->
    cok (par_find_best_swap_n M s rl data j) (fun c _ => c = n).
  Proof.
    intros [hp ho] hl. unfold par_find_best_swap_n. cbv zeta. eapply cok_bind.
    - apply cok_fold with (I := fun _ => True)
        (w := fun x => length (chunk ((n + s_parts s - 1) / s_parts s) (enum data) x)); auto.
      intros x [pl acc] _ _. eapply cok_bind; [apply par_task_cost; auto|]. intros c [loss lagg] ->. apply cok_ret.
      split; [lia|auto].
    - cbv beta. intros c [pl acc] [-> _]. eapply cok_bind; [apply cok_lift with (Q := fun c _ => c = 0); auto|].
      intros c [b bl] ->. apply cok_ret.
      pose proof (Permutation_length (chunks_cover (enum data) hp ho)) as h.
      rewrite length_enum, hl in h. rewrite !Nat.add_0_r. transitivity
        (length (flat_map (chunk ((n + s_parts s - 1) / s_parts s) (enum data)) (s_order s))); [|exact h].
      generalize (s_order s). clear. intros l. induction l as [|a l IH]; [reflexivity|].
      cbn [map flat_map]. rewrite app_length, <- IH. reflexivity.
  Qed.

  Lemma par_do_swap_obj_cost med b j p : b < length med ->
    cok (par_do_swap_obj_n (Lt := Lt) M med b j p) (fun c _ => c <= length med).
  Proof.
    intros hb. destruct p as [o reco]. unfold par_do_swap_obj_n. cbv zeta. destruct (o =? j).
    - apply cok_ret. lia.
    - eapply cok_bind; [apply cok_get with (Q := fun c _ => c = 1); auto|]. intros c d ->.
      eapply cok_bind with (P := fun c _ => c <= length med - 1).
      + assert (G : forall x (f : dpair Nt -> Rec Nt),
          cok (cbind (update_second_nearest_n M med x b o d) (fun t => cret (f t))) (fun c _ => c <= length med - 1)).
        { intros x f. eapply cok_bind; [apply second_cost; auto|]. intros c s hc. apply cok_ret. cbv beta in *. lia. }
        repeat match goal with
        | |- cok (cret _) _ => apply cok_ret; lia
        | |- cok (cbind _ _) _ => apply G
        | |- cok (if ?b then _ else _) _ => destruct b
        end.
      + intros c r hc. apply cok_ret. cbv beta in *. lia.
  Qed.

  Lemma par_do_swap_cost t med data b j : cok (par_do_swap_n (Lt := Lt) M t med data b j) (fun c r =>
    c <= length data * length med /\ length (fst (fst r)) = length med /\ length (snd (fst r)) = length data).
  Proof.
    unfold par_do_swap_n. eapply cok_bind; [apply cok_lift with (Q := fun c _ => c = 0 /\ b < length med)|].
    { unfold assertb. intros a. destruct (Nat.ltb_spec b (length med)); [auto|discriminate]. }
    intros c u [-> hb]. eapply cok_bind; [apply cok_lift with (Q := fun c _ => c = 0); auto|]. intros c u' ->.
    eapply cok_bind; [apply cok_lift with (Q := fun c a => c = 0 /\ length a = length med)|].
    { unfold upd. intros a. destruct (b <? length med); [|discriminate]. intros e. injection e as <-. rewrite length_set_nth. auto. }
    intros c med' [-> hl]. eapply cok_bind; [apply cok_map_le with (w := fun _ => length med'); intros p _; apply par_do_swap_obj_cost; rewrite hl; auto|].
    intros c rs [hc hlr]. eapply cok_bind; [apply cok_lift with (Q := fun c _ => c = 0); auto|].
    intros c' loss ->. apply cok_ret. cbn [fst snd]. rewrite map_length, hlr, length_enum.
    rewrite list_sum_const, length_enum in hc. split; [nia|auto].
  Qed.

  Lemma par_cand_cost orc k st j : oracle_ok orc -> fp_len M k st ->
    cok (par_cand_n (Lt := Lt) M orc st j) (fun c x => fp_len M k (state x) /\ fp_iter (state x) = fp_iter st /\
      c + n * k * fp_swaps st <= n + n * k * fp_swaps (state x)).
  Proof.
    intros ho [h1 h2]. unfold par_cand_n. destruct (j =? fp_last st).
    - apply cok_ret. cbn [state]. split; [split; auto|]. split; [auto|lia].
    - eapply cok_bind; [apply cok_lift with (Q := fun c _ => c = 0); auto|]. intros c rj ->.
      eapply cok_bind; [apply cok_lift with (Q := fun c _ => c = 0); auto|]. intros c mj ->.
      destruct (j =? mj); [apply cok_ret; cbn [state]; split; [split; auto|]; split; [auto|lia]|].
      eapply cok_bind; [apply par_find_best_swap_cost; auto|]. intros c [change b] ->.
      destruct (lleb lzero change); [apply cok_ret; cbn [state]; split; [split; auto|]; split; [auto|lia]|].
      eapply cok_bind; [apply par_do_swap_cost|]. intros c [[med' data'] loss'] (hc & hm & hd).
      cbn [fst snd] in *.
      eapply cok_bind; [apply cok_lift with (Q := fun c _ => c = 0); auto|]. intros c' rl' ->.
      apply cok_ret. cbn [state fp_swaps fp_iter]. split; [split; cbn [fp_med fp_data]; congruence|].
      split; [auto|]. rewrite h1, h2 in hc. nia.
  Qed.

  Lemma par_fasterpam_cost orc order med maxiter : oracle_ok orc -> 2 <= length med ->
    cok (par_fasterpam_n M orc order med maxiter) (fun c (r : pam_result Lt) =>
      n * length med <= c /\ c <= n * length med * (1 + r_swaps r) + n * length order * r_iter r).
  Proof.
    intros ho hk. unfold par_fasterpam_n. destruct (Nat.eqb_spec (length med) 1) as [|_]; [lia|].
    eapply cok_bind; [apply par_initial_cost|]. intros c [loss data] (-> & hd). cbn [snd] in hd.
    eapply cok_bind; [apply cok_lift with (Q := fun c _ => c = 0); auto|]. intros c rl ->.
    eapply cok_bind.
    - apply cok_while with (I := fp_len M (length med)) (lo := fun _ => 0)
        (up := fun s : fpst Nt Lt => n * length med * fp_swaps s + n * length order * fp_iter s).
      + split; auto.
      + intros st hi. unfold par_iteration_n. eapply cok_bind.
        * apply cok_for with (I := fun s => fp_len M (length med) s /\ fp_iter s = S (fp_iter st))
            (up := fun s : fpst Nt Lt => n * length med * fp_swaps s) (w := n).
          -- split; [exact hi|auto].
          -- intros j s _ [his hit]. eapply cok_mono; [apply par_cand_cost; eauto|].
             cbv beta. intros c x (h1 & h2 & h3). split; [split; [auto|congruence]|]. auto.
        * cbv beta. cbn [fp_swaps]. intros c st' [[hi' hit] hc].
          assert (G : within (fun _ => 0) (fun s : fpst Nt Lt => n * length med * fp_swaps s + n * length order * fp_iter s) c st st').
          { split; [lia|]. rewrite hit. nia. }
          destruct (_ || _); apply cok_ret; cbn [state]; rewrite Nat.add_0_r; auto.
    - intros c st [_ [_ h]]. cbn [fp_swaps fp_iter] in h. apply cok_ret. cbn [r_swaps r_iter]. nia.
  Qed.
End Par.

(** ** PAMMEDSIL *)
Section Pammedsil.
  Context {Nt Lt : Type} `{HNN : NumN Nt} `{HNL : NumL Lt} `{HFN : FromN Nt Lt}.
  Variable M : Mat Nt.
  Notation n := (mlen M).

  Lemma pammedsil_optimize_cost_le med data maxiter loss : length data = n -> 1 <= length med ->
    cok (pammedsil_optimize_n (Lt := Lt) M med data maxiter loss) (fun c r =>
      c <= n * length med * (n * r_iter r + r_swaps r)).
  Proof.
    intros hd h1. unfold pammedsil_optimize_n. destruct (Nat.eqb_spec (length med) 1) as [e|_].
    - eapply cok_mono; [apply single_cost_le|]. cbv beta. intros c r [hc hi]. rewrite e, hi. nia.
    - eapply cok_bind.
      + apply cok_while with (I := m_len M (length med)) (lo := fun _ => 0)
          (up := fun s : mst Nt Lt => n * length med * m_swaps s + length med * (n - 1) * n * m_iter s).
        * split; auto.
        * intros st hl. unfold pms_iteration_n. cbn [m_med m_data m_rl m_loss m_swaps m_iter m_last].
          eapply cok_bind.
          -- apply cok_fold_le with (I := fun _ => True) (w := fun _ => length med * (n - 1)); auto.
             intros j best _ _. eapply cok_mono; [apply pms_cand_cost|].
             intros c a (rj & mj & _ & _ & ->). rewrite (proj1 hl), (proj2 hl).
             split; [destruct (j =? mj); [apply Nat.le_0_l|apply Nat.le_refl]|auto].
          -- intros c best [hc _]. rewrite list_sum_const, seq_length in hc.
             eapply cok_mono; [apply swap_best3_cost; exact hl|]. cbn [m_iter m_swaps].
             intros c' x (g1 & g2 & g3). split; [auto|]. unfold within. rewrite g2. nia.
      + intros c st [_ [_ h]]. cbn [m_swaps m_iter] in h. apply cok_ret. cbn [r_swaps r_iter].
        assert (length med * (n - 1) * n * m_iter st <= length med * n * n * m_iter st).
        { apply Nat.mul_le_mono_r, Nat.mul_le_mono_r, Nat.mul_le_mono_l. lia. }
        nia.
  Qed.

  Lemma pammedsil_cost k maxiter : lleb (lzero : Lt) lzero = true -> 1 <= n ->
    cok (pammedsil_n M k maxiter) (fun c (r : pam_result Lt) => c <= n * k * (n * (1 + r_iter r) + r_swaps r)).
  Proof.
    intros hz hn. unfold pammedsil_n. eapply cok_bind; [apply cok_lift with (Q := fun c _ => c = 0 /\ 1 <= k)|].
    { unfold check_input. intros u e. apply bind_ok in e as (sq & _ & e). apply bind_ok in e as (u1 & _ & e).
      apply bind_ok in e as (u2 & _ & e). apply bind_ok in e as (u3 & e & _).
      destruct k; [discriminate|]. split; [auto|lia]. }
    intros c u [-> hk]. eapply cok_bind; [apply build3_exact; auto|]. intros c st (g1 & g2 & ->).
    eapply cok_mono; [apply pammedsil_optimize_cost_le; [exact g1|lia]|]. cbv beta. intros c' r h.
    assert (n * length (b3_meds st) * (n * r_iter r + r_swaps r) <= n * k * (n * r_iter r + r_swaps r)).
    { apply Nat.mul_le_mono_r, Nat.mul_le_mono_l. lia. }
    assert (n * n + (length (b3_meds st) - 1) * (n * (n - 1)) + (if length (b3_meds st) <? k then (n - 1) * (n - 1) else 0) <= n * k * n).
    { assert (hp : n * (n - 1) <= n * n) by (apply Nat.mul_le_mono_l; lia).
      assert (hq : (n - 1) * (n - 1) <= n * n) by (apply Nat.mul_le_mono; lia).
      destruct (Nat.ltb_spec (length (b3_meds st)) k).
      - destruct (Nat.le_exists_sub (S (length (b3_meds st))) k ltac:(lia)) as (d & -> & _).
        destruct (length (b3_meds st)) as [|m]; [lia|]. replace (S m - 1) with m by lia. nia.
      - assert (length (b3_meds st) = k) as -> by lia. destruct k as [|m]; [lia|]. replace (S m - 1) with m by lia. nia. }
    nia.
  Qed.
End Pammedsil.
