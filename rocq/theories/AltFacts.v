(** AltFacts.v -- assign_nearest and alternating (alternating.rs). *)
From Coq Require Import ZArith QArith Lqa Lia.
From Verif Require Import Reference Base Num M_Mat M_Util M_Fasterpam M_Alternating Hoare Spec SpecFacts Laws
  PamShape PamExact LocalSearch FpFacts ChooseFacts.
Set Implicit Arguments.
Open Scope nat_scope.

Section Shape.
  Context {Nt Lt : Type} `{HNN : NumN Nt} `{HNL : NumL Lt} `{HFN : FromN Nt Lt}.
  Variable M : Mat Nt.
  Variable n : nat.
  Variable D : nat -> nat -> Nt.
  Hypothesis HM : is_matrix M n D.

  (** cluster number [a] chosen for object [o] *)
  Definition an_good (med : list nat) (o a : nat) : Prop :=
    a < length med /\
    (forall v, Emb n D v -> nearest v o med a) /\
    (forall v, Emb n D v -> NoDup med -> forall m, m < length med -> nth m med 0 = o -> a = m) /\
    (forall v, Emb n D v -> ~ In o med -> forall c, c < a ->
       (v o (nth a med 0%nat) < v o (nth c med 0%nat))%Q).

  Lemma an_obj_ok med o : inr n med -> o < n -> 1 <= length med ->
    oks (an_obj (Lt := Lt) M med (nth 0 med 0) o) (fun p =>
      an_good med o (fst p) /\ snd p = lfrom (D o (nth (fst p) med 0))).
  Proof.
    intros hin ho hk. unfold an_obj.
    assert (h0 : nth 0 med 0 < n) by (apply inr_nth; auto).
    rewrite (get_ok HM) by auto. cbn [bind].
    eapply oks_bind.
    - apply foldM_enum_from with (I := fun t (b : nat * Nt) =>
        fst b < t /\ snd b = D o (nth (fst b) med 0) /\
        (forall v, Emb n D v -> forall c, c < t ->
           (v o (nth (fst b) med 0%nat) <= v o (nth c med 0%nat))%Q) /\
        (forall v, Emb n D v -> NoDup med -> forall m, m < t -> nth m med 0 = o -> fst b = m) /\
        (forall v, Emb n D v -> ~ In o med -> forall c, c < fst b ->
           (v o (nth (fst b) med 0%nat) < v o (nth c med 0%nat))%Q)); [lia| |].
      + cbn [fst snd]. split; [lia|]. split; [auto|]. split; [|split].
        * intros v he c hc. assert (c = 0) as -> by lia. lra.
        * intros. lia.
        * intros. lia.
      + intros t me [a d] ht hme (h1 & h2 & h3 & h4 & h5). cbn [fst snd] in *.
        pose proof (nth_error_nth _ _ 0 hme) as enth.
        pose proof (nth_error_lt _ _ hme) as hlt.
        assert (hmn : me < n) by (apply hin; apply nth_error_In with (1 := hme)).
        assert (han : nth a med 0 < n) by (apply inr_nth; auto; lia).
        rewrite (get_ok HM) by auto. cbn [bind oks].
        destruct (nltb (D o me) d || (o =? me)) eqn:e; cbn [fst snd].
        * split; [lia|]. split; [congruence|].
          assert (hw : forall v, Emb n D v -> (v o (nth t med 0%nat) <= v o (nth a med 0%nat))%Q).
          { intros v he. rewrite enth. apply orb_true_iff in e as [e|e].
            - rewrite h2 in e. apply (emb_true he) in e; auto. lra.
            - apply Nat.eqb_eq in e. rewrite <- e. pose proof (emb_diag he ho) as hz. pose proof (emb_pos he ho han). lra. }
          split; [|split].
          -- intros v he c hc. destruct (Nat.eq_dec c t) as [->|]; [lra|].
             specialize (h3 v he c ltac:(lia)). specialize (hw v he). lra.
          -- intros v he hnd m hm em. destruct (Nat.eq_dec m t) as [|hne]; [auto|]. exfalso.
             apply orb_true_iff in e as [e|e].
             ++ rewrite h2 in e. apply (emb_true he) in e; auto.
                assert (a = m) as -> by (eapply h4; eauto; lia).
                rewrite em in e. pose proof (emb_diag he ho) as hz.
                pose proof (emb_pos he ho hmn). lra.
             ++ apply Nat.eqb_eq in e. subst me. apply hne.
                apply (proj1 (NoDup_nth med 0)); auto; try lia; congruence.
          -- intros v he hno c hc. rewrite enth. apply orb_true_iff in e as [e|e].
             ++ rewrite h2 in e. apply (emb_true he) in e; auto. specialize (h3 v he c hc). lra.
             ++ apply Nat.eqb_eq in e. exfalso. apply hno. rewrite e. apply nth_error_In with (1 := hme).
        * apply orb_false_iff in e as [e1 e2]. apply Nat.eqb_neq in e2.
          split; [lia|]. split; [auto|]. split; [|split; [|auto]].
          -- intros v he c hc. destruct (Nat.eq_dec c t) as [->|].
             ++ rewrite h2 in e1. apply (emb_false he) in e1; auto. rewrite enth. auto.
             ++ apply h3; auto. lia.
          -- intros v he hnd m hm em. destruct (Nat.eq_dec m t) as [->|hne]; [congruence|].
             eapply h4; eauto. lia.
    - intros [a d] (h1 & h2 & h3 & h4 & h5). cbn [oks fst snd] in *. split; [|congruence].
      split; [auto|]. split; [|split; auto]. intros v he. split; auto.
  Qed.

  Lemma assign_nearest_ok med : sizes n (length med) -> inr n med ->
    oks (assign_nearest (Lt := Lt) M med) (fun p =>
      length (snd p) = n /\
      (forall o, o < n -> an_good med o (nth o (snd p) 0)) /\
      reduce ladd (map (fun o => lfrom (D o (nth (nth o (snd p) 0) med 0))) (seq 0 n)) = Some (fst p)).
  Proof.
    intros hs hin. assert (hk : 1 <= length med /\ 1 <= n) by (destruct hs; lia).
    unfold assign_nearest. rewrite (check_input_ok HM hs). cbn [bind].
    rewrite idx_nth with (d := 0) by lia. cbn [bind]. rewrite (len_n HM).
    eapply oks_bind.
    { apply mapM_seq with (R := fun o (p : nat * Lt) =>
        an_good med o (fst p) /\ snd p = lfrom (D o (nth (fst p) med 0))).
      intros o ho. apply an_obj_ok; auto. lia. }
    intros rs [hl hr]. cbn [oks fst snd].
    assert (e : map snd rs = map (fun o => (lfrom (D o (nth (nth o (map fst rs) 0) med 0)) : Lt)) (seq 0 n)).
    { apply nth_ext with (d := lzero) (d' := lzero); [rewrite !map_length, seq_length; auto|].
      intros o ho. rewrite map_length in ho. destruct (nth_error_ex rs (i := o)) as [p hp]; [auto|].
      destruct (hr o p hp) as [_ e].
      rewrite (nth_error_nth (map snd rs) o lzero (x := snd p)) by (rewrite nth_error_map, hp; auto).
      symmetry. rewrite e. apply nth_error_nth. rewrite nth_error_map, nth_error_seq by lia.
      simpl. f_equal. f_equal. f_equal. f_equal. apply nth_error_nth. rewrite nth_error_map, hp. auto. }
    split; [rewrite map_length; auto|]. split.
    - intros o ho. destruct (nth_error_ex rs (i := o)) as [p hp]; [lia|].
      rewrite (nth_error_nth (map fst rs) o 0 (x := fst p)) by (rewrite nth_error_map, hp; auto).
      apply (hr o p hp).
    - rewrite <- e. destruct (reduce_some ladd (l := map snd rs)) as [x hx].
      { destruct rs; simpl in *; [lia|congruence]. }
      rewrite hx. auto.
  Qed.

  Lemma alt_medoids_shape assi med : length assi = n -> inr n med ->
    oks (alt_medoids (Lt := Lt) M assi med) (fun p => length (fst p) = length med /\ inr n (fst p)).
  Proof.
    intros hl hin. unfold alt_medoids.
    apply foldM_inv with (I := fun p : list nat * bool => length (fst p) = length med /\ inr n (fst p)); [auto|].
    intros i [md ch] hi [h1 h2]. apply in_seq in hi. cbn [fst] in *.
    pose proof (choose_shape (Lt := Lt) HM assi hl (med := md) (m := i) ltac:(lia) h2) as hc.
    apply oks_inv in hc as ([[md' c] s] & -> & b & hb & -> & _). cbn [bind oks fst].
    split; [rewrite length_set_nth; auto|apply inr_set_nth; auto].
  Qed.

  Lemma alternating_shape med maxiter : sizes n (length med) -> inr n med ->
    oks (alternating (Lt := Lt) M med maxiter) (fun r =>
      length (r_med r) = length med /\ inr n (r_med r) /\ length (r_assi r) = n /\
      (forall o, o < n -> nth o (r_assi r) 0 < length med) /\ r_iter r <= maxiter).
  Proof.
    intros hs hin. unfold alternating.
    pose proof (assign_nearest_ok hs hin) as h.
    apply oks_inv in h as ([loss assi] & -> & hl & ha & _). cbn [bind snd] in *.
    eapply oks_bind.
    - apply whileM_oks with (I := fun i (st : ast Lt) => length (al_med st) = length med /\
        inr n (al_med st) /\ length (al_assi st) = n /\
        (forall o, o < n -> nth o (al_assi st) 0 < length med) /\ al_iter st = i)
        (J := fun st => length (al_med st) = length med /\
        inr n (al_med st) /\ length (al_assi st) = n /\
        (forall o, o < n -> nth o (al_assi st) 0 < length med) /\ al_iter st <= maxiter).
      + cbn. split; [auto|]. split; [auto|]. split; [auto|]. split; [|auto].
        intros o ho. apply (ha o ho).
      + intros i st hi (h1 & h2 & h3 & h4 & h5). unfold alt_iteration.
        pose proof (alt_medoids_shape (al_assi st) h3 h2) as hm.
        apply oks_inv in hm as ([med' ch] & -> & m1 & m2). cbn [bind fst] in *.
        destruct ch; cbn [negb].
        * rewrite h1 in m1. rewrite <- m1 in hs.
          pose proof (assign_nearest_ok hs m2) as h.
          apply oks_inv in h as ([loss' assi'] & -> & hl' & ha' & _).
          cbn [bind snd oks al_med al_assi al_iter] in *.
          split; [auto|]. split; [auto|]. split; [auto|]. split; [|lia].
          intros o ho. rewrite <- m1. apply (ha' o ho).
        * cbn [oks al_med al_assi al_iter]. split; [congruence|]. split; [auto|]. split; [auto|].
          split; [auto|lia].
      + intros st (h1 & h2 & h3 & h4 & h5). intuition lia.
    - intros st h. exact h.
  Qed.
End Shape.

Section Exact.
  Context {Nt Lt : Type} `{HLL : LossLaws Nt Lt}.
  Variable M : Mat Nt.
  Variable n : nat.
  Variable D : nat -> nat -> Nt.
  Hypothesis HD : diss_matrix M n D.
  Local Notation v := (vals D).

  (** a consistent clustering *)
  Record clustering (med assi : list nat) (loss : Lt) : Prop := {
    cl_assi_len : length assi = n;
    cl_nearest : forall o, o < n -> nearest v o med (nth o assi 0);
    cl_own : forall c, c < length med -> nth (nth c med 0) assi 0 = c;
    cl_loss : (vL loss == tdev v n med)%Q;
    cl_ref : assi = clusters v n med
  }.

  Lemma cluster_of_eq med o a : NoDup med -> an_good n D med o a -> a = cluster_of v med o.
  Proof.
    intros hnd (h1 & h2 & h3 & h4). destruct (emb_vals HD) as [he _].
    specialize (h2 v he). specialize (h3 v he hnd). specialize (h4 v he). unfold cluster_of.
    destruct (find (fun c => nth c med 0 =? o) (seq 0 (length med))) as [c|] eqn:ef.
    - apply find_some in ef as [hc e]. apply in_seq in hc. apply Nat.eqb_eq in e. apply h3; auto. lia.
    - symmetry. apply first_index with (f := fun c => v o (nth c med 0%nat)); auto.
      + intros y hy. apply h2. auto.
      + apply h4. intros hin. apply In_nth with (d := 0) in hin as (c & hc & e).
        assert (hin : In c (seq 0 (length med))) by (apply in_seq; lia).
        pose proof (find_none _ _ ef c hin) as hf. simpl in hf. apply Nat.eqb_neq in hf. auto.
  Qed.

  Lemma assign_nearest_clustering med : sizes n (length med) -> medoids n (length med) med ->
    oks (assign_nearest (Lt := Lt) M med) (fun p => clustering med (snd p) (fst p)).
  Proof.
    intros hs (_ & hnd & hin). pose proof (proj1 HD) as HM. destruct (emb_vals HD) as [he _].
    eapply oks_mono; [apply (assign_nearest_ok HM hs hin)|].
    intros [loss assi] (h1 & h2 & h3). cbn [fst snd] in *.
    assert (hnear : forall o, o < n -> nearest v o med (nth o assi 0)) by (intros o ho; apply (h2 o ho); auto).
    constructor; auto.
    1:{ intros c hc. assert (hcn : nth c med 0 < n) by (apply inr_nth; auto).
      destruct (h2 _ hcn) as (_ & _ & h & _). eapply h; eauto. }
    2:{ unfold clusters. apply nth_ext with (d := 0) (d' := 0); [rewrite map_length, seq_length; auto|].
        intros o ho. rewrite h1 in ho. rewrite nth_map_seq by auto. apply cluster_of_eq; auto. }
    - apply reduce_sum in h3. rewrite h3, sumQ_map. apply sumQ_ext. intros o ho. apply in_seq in ho.
      rewrite (vL_D HD); [|lia|].
      + symmetry. apply nearest_mindist. apply hnear. lia.
      + apply inr_nth; auto. apply hnear. lia.
  Qed.

  (** cost of the clusters [assi] with the medoids [med] *)
  Definition part_cost (assi med : list nat) : Q :=
    sumQ (fun c => cluster_cost v n assi c (nth c med 0%nat)) (seq 0 (length med)).

  Lemma part_cost_sum assi med : (forall o, o < n -> nth o assi 0 < length med) ->
    (part_cost assi med == sumQ (fun o => v (nth (nth o assi 0%nat) med 0%nat) o) (seq 0 n))%Q.
  Proof.
    intros ha. unfold part_cost, cluster_cost.
    assert (G : forall (F : nat -> nat -> Q) l1 l2,
      (sumQ (fun c => sumQ (fun i => F c i) l2) l1 == sumQ (fun i => sumQ (fun c => F c i) l1) l2)%Q).
    { intros F l1 l2. induction l1 as [|c l1 IH]; cbn [sumQ fold_right].
      - rewrite sumQ_zero. reflexivity.
      - unfold sumQ in IH at 1. rewrite IH. rewrite <- sumQ_plus. reflexivity. }
    rewrite (G (fun c i => if (nth i assi 0 =? c)%nat then v (nth c med 0%nat) i else 0%Q)).
    apply sumQ_ext. intros i hi. apply in_seq in hi.
    rewrite (sumQ_ext _ (fun c => if (c =? nth i assi 0)%nat then v (nth (nth i assi 0%nat) med 0%nat) i else 0%Q) _).
    - apply sumQ_single. apply ha. lia.
    - intros c _. rewrite Nat.eqb_sym. destruct (Nat.eqb_spec c (nth i assi 0)) as [->|]; reflexivity.
  Qed.

  Lemma part_cost_tdev assi med loss : symmetric n v -> inr n med -> clustering med assi loss ->
    (part_cost assi med == tdev v n med)%Q.
  Proof.
    intros hs hin [h1 h2 h3 h4 _]. rewrite part_cost_sum by (intros o ho; apply (h2 o ho)).
    apply sumQ_ext. intros o ho. apply in_seq in ho.
    rewrite (nearest_mindist (h2 o ltac:(lia))). apply hs; [|lia].
    apply inr_nth; auto. apply h2. lia.
  Qed.

  Lemma part_cost_ge assi med : symmetric n v -> inr n med ->
    (forall o, o < n -> nth o assi 0 < length med) -> (tdev v n med <= part_cost assi med)%Q.
  Proof.
    intros hs hin ha. rewrite part_cost_sum by auto. apply sumQ_le. intros o ho. apply in_seq in ho.
    rewrite (hs (nth (nth o assi 0) med 0) o); [|apply inr_nth; auto; apply ha; lia|lia].
    apply mindist_le. apply nth_In. apply ha. lia.
  Qed.

  Definition cluster_optimal (assi med : list nat) (c : nat) : Prop :=
    forall j, j < n -> nth j assi 0 = c ->
      (cluster_cost v n assi c (nth c med 0%nat) <= cluster_cost v n assi c j)%Q.

  Lemma set_nth_other A (l : list A) i x c d : c <> i -> nth c (set_nth l i x) d = nth c l d.
  Proof. apply nth_set_nth_neq. Qed.

  Lemma sum_lt_one (f g : nat -> Q) k i : i < k -> (f i < g i)%Q ->
    (forall c, c < k -> (f c <= g c)%Q) -> (sumQ f (seq 0 k) < sumQ g (seq 0 k))%Q.
  Proof.
    intros hi hlt hle.
    assert (h : (0 < sumQ (fun c => g c - f c) (seq 0 k))%Q).
    { apply Qlt_le_trans with (y := sumQ (fun c => if (c =? i)%nat then g i - f i else 0)%Q (seq 0 k)).
      - rewrite sumQ_single by auto. lra.
      - apply sumQ_le. intros c hc. apply in_seq in hc. specialize (hle c ltac:(lia)).
        destruct (Nat.eqb_spec c i) as [->|]; lra. }
    rewrite sumQ_minus in h. lra.
  Qed.

  Lemma alt_medoids_ok assi med : length assi = n -> inr n med ->
    (forall c, c < length med -> nth (nth c med 0) assi 0 = c) ->
    oks (alt_medoids (Lt := Lt) M assi med) (fun p =>
      length (fst p) = length med /\ inr n (fst p) /\
      (forall c, c < length med -> nth (nth c (fst p) 0) assi 0 = c) /\
      (forall c, c < length med -> cluster_optimal assi (fst p) c) /\
      (snd p = false -> fst p = med) /\
      (part_cost assi (fst p) <= part_cost assi med)%Q /\
      (snd p = true -> (part_cost assi (fst p) < part_cost assi med)%Q) /\
      fst p = centers v n assi med).
  Proof.
    intros hl hin hown. unfold alt_medoids.
    eapply oks_mono.
    - apply foldM_seq with (I := fun t (p : list nat * bool) =>
        length (fst p) = length med /\ inr n (fst p) /\
        (forall c, c < length med -> nth (nth c (fst p) 0) assi 0 = c) /\
        (forall c, c < t -> cluster_optimal assi (fst p) c) /\
        (forall c, t <= c -> nth c (fst p) 0 = nth c med 0) /\
        (forall c, c < length med -> (cluster_cost v n assi c (nth c (fst p) 0%nat) <=
                                     cluster_cost v n assi c (nth c med 0%nat))%Q) /\
        (snd p = false -> fst p = med) /\
        (snd p = true -> exists c, c < length med /\
            (cluster_cost v n assi c (nth c (fst p) 0%nat) < cluster_cost v n assi c (nth c med 0%nat))%Q) /\
        (forall c, c < t -> nth c (fst p) 0 = center v n assi c (nth c med 0))).
      + cbn [fst snd]. split; [auto|]. split; [auto|]. split; [auto|]. split; [intros; lia|].
        split; [auto|]. split; [intros; lra|]. split; [auto|].
        split; [discriminate|]. intros; lia.
      + intros i [md ch] hi (h1 & h2 & h3 & h4 & h5 & h6 & h7 & h8 & h9). cbn [fst snd] in *.
        pose proof (choose_ok HD assi hl (med := md) (m := i) ltac:(lia) h2) as hc.
        apply oks_inv in hc as ([[md' c] s] & -> & b & hb & -> & -> & _ & hcase & hmin & hcen).
        cbn [bind oks fst snd].
        assert (hnb : nth i (set_nth md i b) 0 = b) by (apply nth_set_nth_eq; lia).
        assert (hle : (cluster_cost v n assi i b <= cluster_cost v n assi i (nth i md 0%nat))%Q).
        { destruct hcase as [->|[_ hcase]]; lra. }
        split; [rewrite length_set_nth; auto|]. split; [apply inr_set_nth; auto|].
        split; [|split; [|split; [|split; [|split; [|split]]]]].
        * intros c hc. destruct (Nat.eq_dec c i) as [->|].
          -- rewrite hnb. destruct hcase as [->|[hcase _]]; auto.
          -- rewrite set_nth_other by auto. auto.
        * intros c hc. destruct (Nat.eq_dec c i) as [->|].
          -- intros j hj ej. rewrite hnb. auto.
          -- intros j hj ej. rewrite set_nth_other by auto. apply h4; auto. lia.
        * intros c hc. rewrite set_nth_other by lia. apply h5. lia.
        * intros c hc. destruct (Nat.eq_dec c i) as [->|].
          -- rewrite hnb. rewrite (h5 i) in hle by lia. auto.
          -- rewrite set_nth_other by auto. auto.
        * intros e. apply orb_false_iff in e as [e1 e2]. apply negb_false_iff, Nat.eqb_eq in e2.
          rewrite e2, set_nth_same. auto.
        * intros e. apply orb_true_iff in e as [e|e].
          -- destruct (h8 e) as (c & hc & hlt). exists c. split; [auto|].
             destruct (Nat.eq_dec c i) as [->|].
             ++ rewrite (h5 i) in hlt by lia. lra.
             ++ rewrite set_nth_other by auto. auto.
          -- apply negb_true_iff, Nat.eqb_neq in e. exists i. split; [auto|]. rewrite hnb.
             destruct hcase as [|[_ hlt]]; [tauto|]. rewrite (h5 i) in hlt by lia. auto.
        * intros c hc. destruct (Nat.eq_dec c i) as [->|].
          -- rewrite hnb, hcen, (h5 i) by lia. auto.
          -- rewrite set_nth_other by auto. apply h9. lia.
    - intros [md ch] (h1 & h2 & h3 & h4 & h5 & h6 & h7 & h8 & h9). cbn [fst snd] in *.
      split; [auto|]. split; [auto|]. split; [auto|]. split; [auto|]. split; [auto|].
      unfold part_cost. rewrite h1. split; [|split].
      + apply sumQ_le. intros c hc. apply in_seq in hc. apply h6. lia.
      + intros e. destruct (h8 e) as (c & hc & hlt).
        apply sum_lt_one with (f := fun c => cluster_cost v n assi c (nth c md 0%nat))
          (g := fun c => cluster_cost v n assi c (nth c med 0%nat)) (i := c); auto.
      + unfold centers. apply nth_ext with (d := 0) (d' := 0); [rewrite map_length, seq_length; auto|].
        intros c hc. rewrite h1 in hc. rewrite nth_map_seq by auto. auto.
  Qed.

  Lemma own_nodup (assi med : list nat) :
    (forall c, c < length med -> nth (nth c med 0) assi 0 = c) -> NoDup med.
  Proof.
    intros h. apply (NoDup_nth med 0). intros i j hi hj e.
    rewrite <- (h i hi), <- (h j hj). congruence.
  Qed.

  Record alt_good (k : nat) (st : ast Lt) : Prop := {
    ag_med : medoids n k (al_med st);
    ag_assign : assign_nearest M (al_med st) = Ok (al_loss st, al_assi st)
  }.

  Definition alt_fix (st : ast Lt) : Prop :=
    alt_medoids (Lt := Lt) M (al_assi st) (al_med st) = Ok (al_med st, false) /\
    forall c, c < length (al_med st) -> cluster_optimal (al_assi st) (al_med st) c.

  Lemma alt_iteration_ok k st : sizes n k -> alt_good k st ->
    oks (alt_iteration M st) (fun c => match c with
      | Break s => s = mkA (al_med st) (al_assi st) (al_loss st) (S (al_iter st)) /\ alt_fix s /\
          centers v n (clusters v n (al_med st)) (al_med st) = al_med st
      | Next s => alt_good k s /\ al_iter s = S (al_iter st) /\
          (symmetric n v -> (tdev v n (al_med s) < tdev v n (al_med st))%Q) /\
          centers v n (clusters v n (al_med st)) (al_med st) = al_med s /\ al_med s <> al_med st
      end).
  Proof.
    intros hs [(m1 & m2 & m3) ha]. unfold alt_iteration.
    assert (hm : medoids n (length (al_med st)) (al_med st)) by (split; auto).
    assert (hs' : sizes n (length (al_med st))) by (rewrite m1; auto).
    pose proof (assign_nearest_clustering hs' hm) as hcl. rewrite ha in hcl. cbn [oks fst snd] in hcl.
    pose proof hcl as [c1 c2 c3 c4 c5].
    pose proof (alt_medoids_ok (al_assi st) c1 m3 c3) as h.
    apply oks_inv in h as ([med' ch] & e & q1 & q2 & q3 & q4 & q5 & q6 & q7 & q8). cbn [fst snd] in *.
    rewrite e. cbn [bind]. rewrite <- c5.
    destruct ch; cbn [negb].
    - assert (hm' : medoids n (length med') med').
      { split; [auto|]. split; [|auto]. apply own_nodup with (assi := al_assi st). rewrite q1. auto. }
      assert (hs2 : sizes n (length med')) by (rewrite q1; auto).
      pose proof (assign_nearest_clustering hs2 hm') as h.
      apply oks_inv in h as ([loss' assi'] & e' & hcl'). rewrite e'. cbn [bind oks al_med al_iter].
      split; [constructor; cbn [al_med al_loss al_assi]; auto|].
      + rewrite q1, m1 in hm'. auto.
      + split; [auto|]. specialize (q7 eq_refl).
        split; [|split; [auto|intros ->; lra]]. intros hsym.
        rewrite (part_cost_tdev hsym m3 hcl) in q7.
        assert (hge := part_cost_ge (al_assi st) hsym q2 ltac:(intros o ho; rewrite q1; apply (c2 o ho))).
        lra.
    - specialize (q5 eq_refl). subst med'. cbn [oks]. split; [auto|].
      split; [|auto]. split; cbn [al_med al_assi]; auto.
  Qed.

  Record alt_summary (med : list nat) (maxiter : nat) (r : pam_result Lt) : Prop := {
    as_medoids : medoids n (length med) (r_med r);
    as_clustering : clustering (r_med r) (r_assi r) (r_loss r);
    as_iter : r_iter r <= maxiter;
    as_obj : symmetric n v -> (tdev v n (r_med r) <= tdev v n med)%Q;
    as_bound : symmetric n v ->
      r_iter r + better (tdev v n) n (length med) (r_med r) <= S (better (tdev v n) n (length med) med);
    as_fix : r_iter r < maxiter ->
      (forall c, c < length med -> cluster_optimal (r_assi r) (r_med r) c) /\
      forall m, alternating M (r_med r) (S m) = Ok (mkPR (r_loss r) (r_assi r) 1 0 (r_med r));
    as_ref : (r_med r, r_iter r) = alternate v n maxiter med 0
  }.

  Lemma alternating_ok med maxiter : sizes n (length med) -> medoids n (length med) med ->
    oks (alternating (Lt := Lt) M med maxiter) (alt_summary med maxiter).
  Proof.
    intros hs hm. unfold alternating.
    pose proof (assign_nearest_clustering hs hm) as h.
    apply oks_inv in h as ([loss assi] & e & hcl). rewrite e. cbn [bind fst snd] in *.
    set (k := length med) in *.
    assert (hbet : forall md md', medoids n k md' -> (tdev v n md' < tdev v n md)%Q ->
       better (tdev v n) n k md' < better (tdev v n) n k md).
    { intros md md' (h1 & _ & h2) hlt. apply better_lt; auto. }
    eapply oks_bind.
    - apply whileM_oks with
        (I := fun i (st : ast Lt) => alt_good k st /\ al_iter st = i /\
           alternate v n (maxiter - i) (al_med st) i = alternate v n maxiter med 0 /\
           (symmetric n v -> (tdev v n (al_med st) <= tdev v n med)%Q /\
              i + better (tdev v n) n k (al_med st) <= better (tdev v n) n k med))
        (J := fun st => alt_good k st /\ al_iter st <= maxiter /\
           (al_med st, al_iter st) = alternate v n maxiter med 0 /\
           (symmetric n v -> (tdev v n (al_med st) <= tdev v n med)%Q /\
              al_iter st + better (tdev v n) n k (al_med st) <= S (better (tdev v n) n k med)) /\
           (al_iter st < maxiter -> alt_fix st)).
      + cbn. split; [constructor; auto|]. split; [auto|]. split; [rewrite Nat.sub_0_r; auto|]. intros _. split; [lra|lia].
      + intros i st hi (h1 & h2 & href & h3).
        replace (maxiter - i) with (S (maxiter - S i)) in href by lia. cbn [alternate] in href.
        eapply oks_mono; [apply (alt_iteration_ok hs h1)|].
        intros [s|s].
        * intros (q1 & q2 & q3 & q4 & q5). split; [auto|]. split; [lia|].
          rewrite q4 in href. destruct (list_eq_dec Nat.eq_dec (al_med s) (al_med st)); [tauto|].
          split; [auto|]. intros hsym.
          specialize (h3 hsym). specialize (q3 hsym). destruct h3 as [h3 h4].
          pose proof (hbet _ _ (ag_med q1) q3). split; [lra|lia].
        * intros (-> & q2 & q3). rewrite q3 in href.
          destruct (list_eq_dec Nat.eq_dec (al_med st) (al_med st)); [|tauto]. cbn [al_med al_iter] in *. split; [destruct h1; constructor; auto|].
          split; [lia|]. split; [rewrite h2; auto|]. split; [|auto]. intros hsym. specialize (h3 hsym). split; [apply h3|lia].
      + intros st (h1 & h2 & href & h3). split; [auto|]. split; [lia|].
        rewrite Nat.sub_diag in href. cbn [alternate] in href. split; [rewrite h2; auto|]. split; [|lia].
        intros hsym. specialize (h3 hsym). split; [apply h3|lia].
    - intros st (h1 & h2 & href & h3 & h4). cbn [oks].
      destruct h1 as [hg1 hg2]. pose proof hg1 as (m1 & m2 & m3).
      assert (hs' : sizes n (length (al_med st))) by (rewrite m1; auto).
      assert (hm' : medoids n (length (al_med st)) (al_med st)) by (split; auto).
      pose proof (assign_nearest_clustering hs' hm') as hcl'. rewrite hg2 in hcl'. cbn [oks fst snd] in hcl'.
      constructor; cbn [r_med r_assi r_loss r_iter]; auto.
      + intros hsym. apply h3. auto.
      + intros hsym. apply h3. auto.
      + intros hlt. destruct (h4 hlt) as [f1 f2]. split.
        * intros c hc. apply f2. rewrite m1. auto.
        * intros m. unfold alternating. rewrite hg2. cbn [bind whileM]. unfold alt_iteration. cbn [al_assi al_med].
          rewrite f1. cbn [bind negb al_loss al_iter al_med al_assi]. auto.
  Qed.
End Exact.
