(** PamsilFacts.v -- the swap phase of PAMSIL (pamsil.rs), for every numeric type. *)
From Coq Require Import ZArith QArith Lqa Lia.
From Verif Require Import Base Num M_Mat M_Util M_Fasterpam M_Pam M_Alternating M_Silhouette M_Pamsil Hoare Spec SpecFacts
  Laws PamShape PamExact Reference LocalSearch FpFacts ChooseFacts BuildFacts AltFacts SilFacts.
Set Implicit Arguments.
Open Scope nat_scope.

Lemma whileM_wk S (body : S -> res (ctl S)) (I : nat -> S -> Prop) (J : S -> Prop) fuel s0 :
  I 0 s0 ->
  (forall i s, i < fuel -> I i s -> wk (body s) (fun c => match c with Next s' => I (Datatypes.S i) s' | Break s' => J s' end)) ->
  (forall s, I fuel s -> J s) ->
  wk (whileM fuel body s0) J.
Proof.
  revert I s0. induction fuel as [|fuel IH]; intros I s0 h0 hs hf; cbn [whileM].
  - apply hf. auto.
  - pose proof (hs 0 s0 ltac:(lia) h0) as h. destruct (body s0) as [[s'|s']|p]; cbn [bind wk] in *; auto.
    apply IH with (I := fun i => I (Datatypes.S i)); auto.
    intros i s hi. apply hs. lia.
Qed.

Lemma wk_oks A (m : res A) (P Q : A -> Prop) : oks m P -> wk m Q -> oks m Q.
Proof. destruct m; simpl; auto. Qed.

Section Shape.
  Context {Nt Lt : Type} `{HNN : NumN Nt} `{HNL : NumL Lt} `{HFN : FromN Nt Lt}.
  Variable M : Mat Nt.
  Variable n : nat.
  Variable D : nat -> nat -> Nt.
  Hypothesis HM : is_matrix M n D.
  Variable k : nat.
  Hypothesis hs : sizes n k.

  (** the silhouette of the nearest-medoid assignment *)
  Definition sv (med : list nat) : res Lt :=
    '(_, assi) <- assign_nearest (Lt := Lt) M med ;; '(s, _) <- silhouette M assi false ;; Ok s.

  (** the values which are compared: zero and the silhouettes of medoid lists *)
  Definition is_val (s : Lt) : Prop := s = lzero \/ exists med, length med = k /\ inr n med /\ sv med = Ok s.

  Lemma val_zero : is_val lzero.
  Proof. left. auto. Qed.

  Lemma val_sv med s : length med = k -> inr n med -> sv med = Ok s -> is_val s.
  Proof. intros. right. eauto. Qed.

  (** [f] orders these values as [lleb] does *)
  Definition ordf (f : Lt -> Q) : Prop := forall x y, is_val x -> is_val y -> lleb x y = true <-> (f x <= f y)%Q.

  Lemma ordf_gt f x y : ordf f -> is_val x -> is_val y -> lleb x y = false -> (f y < f x)%Q.
  Proof. intros hf hx hy e. apply Qnot_le_lt. intros h. apply hf in h; auto. congruence. Qed.

  Lemma ordf_le f x y : ordf f -> is_val x -> is_val y -> lleb x y = true -> (f x <= f y)%Q.
  Proof. intros hf hx hy e. apply hf; auto. Qed.

  Definition assi_ok (assi : list nat) : Prop := length assi = n /\ forall o, o < n -> nth o assi 0 < k.

  Lemma sv_ok med : length med = k -> inr n med ->
    exists loss assi s, assign_nearest (Lt := Lt) M med = Ok (loss, assi) /\
      silhouette (Lt := Lt) M assi false = Ok (s, []) /\ sv med = Ok s /\ assi_ok assi.
  Proof.
    intros hl hin. unfold sv. assert (hs' : sizes n (length med)) by (rewrite hl; auto).
    pose proof (assign_nearest_ok (Lt := Lt) HM hs' hin) as h.
    apply oks_inv in h as ([loss assi] & e & h1 & h2 & _). cbn [snd] in *. rewrite e. cbn [bind].
    pose proof (silhouette_oks (Lt := Lt) HM assi false ltac:(lia)) as h.
    apply oks_inv in h as ([s vec] & e' & h3). cbn [snd] in h3. destruct vec; [|discriminate]. rewrite e'. cbn [bind].
    exists loss, assi, s. split; [auto|]. split; [auto|]. split; [auto|]. split; [auto|].
    intros o ho. rewrite <- hl. apply (h2 o ho).
  Qed.

  Definition best_ok (med : list nat) (best : Lt * option (nat * nat)) : Prop :=
    match snd best with
    | None => fst best = lzero
    | Some (b, j) => b < k /\ j < n /\ sv (set_nth med b j) = Ok (fst best) /\
        exists b' j' s', b' < k /\ j' < n /\ sv (set_nth med b' j') = Ok s' /\ lleb s' lzero = false
    end /\ forall f : Lt -> Q, ordf f -> (f lzero <= f (fst best))%Q /\ (snd best <> None -> (f lzero < f (fst best))%Q).

  (** the swaps of position [b < m], or position [m] and candidates [< t], do not beat [best] *)
  Definition cov (med : list nat) (m t : nat) (best : Lt) : Prop :=
    forall b j s, (b < m \/ b = m /\ j < t) -> b < k -> j < n -> ~ In j med -> sv (set_nth med b j) = Ok s ->
    forall f : Lt -> Q, ordf f -> (f s <= f best)%Q.

  Section Search.
    Variable med : list nat.
    Hypothesis hl : length med = k.
    Hypothesis hin : inr n med.

    Lemma swap_inr b j : j < n -> inr n (set_nth med b j).
    Proof. intros hj x hx. apply set_nth_In in hx as [->|hx]; auto. Qed.

    Lemma swap_len b j : length (set_nth med b j) = k.
    Proof. rewrite length_set_nth. auto. Qed.

    Lemma swap_swap b x j : set_nth (set_nth med b x) b j = set_nth med b j.
    Proof.
      clear. revert b. induction med as [|a l IH]; intros [|b]; cbn; auto. f_equal. apply IH.
    Qed.

    Lemma best_val best : best_ok med best -> is_val (fst best).
    Proof.
      intros [h _]. destruct (snd best) as [[b j]|]; [|left; auto]. destruct h as (_ & h1 & h2 & _).
      eapply val_sv; [apply swap_len|apply swap_inr|]; eauto.
    Qed.

    Record cinv (m t : nat) (st : psst Lt) : Prop := {
      ci_med : ps_med st = med \/ exists x, x < t /\ x < n /\ ps_med st = set_nth med m x;
      ci_assi : assi_ok (ps_assi st);
      ci_best : best_ok med (ps_best st);
      ci_cov : cov med m t (fst (ps_best st))
    }.

    Lemma cand_ok m j st : m < k -> j < n -> cinv m j st ->
      oks (pamsil_cand M m (nth m med 0) st j) (cinv m (S j)).
    Proof.
      intros hm hj [c1 c2 c3 c4]. unfold pamsil_cand.
      assert (hst : In j med -> cinv m (S j) st).
      { intros hjm. constructor; auto.
        - destruct c1 as [c1|(x & x1 & x2 & x3)]; [auto|]. right. exists x. split; [lia|auto].
        - intros b j' s h1 h2 h3 h4 h5. apply c4 with b j'; auto.
          destruct h1 as [h1|[-> h1]]; [auto|]. right. split; [auto|].
          destruct (Nat.eq_dec j' j) as [->|]; [tauto|lia]. }
      destruct (Nat.eqb_spec j (nth m med 0)) as [->|hne].
      { apply hst. apply nth_In. lia. }
      destruct c2 as [a1 a2]. rewrite idx_nth with (d := 0) by lia. cbn [bind].
      assert (hpl : length (ps_med st) = k).
      { destruct c1 as [->|(x & _ & _ & ->)]; [auto|apply swap_len]. }
      rewrite idx_nth with (d := 0) by (rewrite hpl; auto). cbn [bind].
      destruct (Nat.eqb_spec j (nth (nth j (ps_assi st) 0) (ps_med st) 0)) as [e|_].
      { apply hst. assert (hjp : In j (ps_med st)) by (rewrite e; apply nth_In; rewrite hpl; auto).
        destruct c1 as [c1|(x & x1 & x2 & x3)]; [congruence|]. rewrite x3 in hjp.
        apply set_nth_In in hjp as [->|hjp]; [lia|auto]. }
      rewrite upd_ok by lia. cbn [bind].
      assert (em : set_nth (ps_med st) m j = set_nth med m j).
      { destruct c1 as [->|(x & _ & _ & ->)]; [reflexivity|]. apply swap_swap. }
      rewrite em.
      destruct (@sv_ok (set_nth med m j) (swap_len m j) (swap_inr m hj)) as (loss & assi & s & e1 & e2 & e3 & e4).
      rewrite e1. cbn [bind]. rewrite e2. cbn [bind].
      assert (hvs : is_val s) by (eapply val_sv; [apply swap_len|apply swap_inr|]; eauto).
      pose proof (best_val c3) as hvb.
      destruct (lleb s (fst (ps_best st))) eqn:el; cbn [oks].
      - constructor; cbn [ps_med ps_assi ps_best]; auto.
        + right. exists j. auto.
        + intros b j' s' h1 h2 h3 h4 h5 f hf.
          destruct (Nat.eq_dec b m) as [->|hb]; [destruct (Nat.eq_dec j' j) as [->|hj']|].
          * rewrite e3 in h5. injection h5 as <-. apply hf; auto.
          * apply c4 with m j'; auto. lia.
          * apply c4 with b j'; auto. lia.
      - assert (hlt : forall f : Lt -> Q, ordf f -> (f (fst (ps_best st)) < f s)%Q).
        { intros f hf. apply ordf_gt; auto. }
        constructor; cbn [ps_med ps_assi ps_best fst]; auto.
        + right. exists j. auto.
        + split; cbn [fst snd].
          * split; [auto|]. split; [auto|]. split; [auto|].
            destruct c3 as [c3 _]. destruct (snd (ps_best st)) as [[b' j']|] eqn:eb.
            -- apply c3.
            -- rewrite c3 in el. exists m, j, s. auto.
          * intros f hf. destruct (proj2 c3 f hf) as [q1 q2]. specialize (hlt f hf). split; [lra|]. intros _. lra.
        + intros b j' s' h1 h2 h3 h4 h5 f hf. specialize (hlt f hf).
          destruct (Nat.eq_dec b m) as [->|hb]; [destruct (Nat.eq_dec j' j) as [->|hj']|].
          * rewrite e3 in h5. injection h5 as <-. lra.
          * assert (f s' <= f (fst (ps_best st)))%Q by (apply c4 with m j'; auto; lia). lra.
          * assert (f s' <= f (fst (ps_best st)))%Q by (apply c4 with b j'; auto; lia). lra.
    Qed.

    Lemma pos_ok m st : m < k -> cinv m 0 st -> ps_med st = med ->
      oks (pamsil_pos M st m) (fun s => cinv (S m) 0 s /\ ps_med s = med).
    Proof.
      intros hm hc e. unfold pamsil_pos. rewrite e. rewrite idx_nth with (d := 0) by lia. cbn [bind].
      rewrite (len_n HM). eapply oks_bind.
      - apply foldM_seq with (I := fun t s => cinv m t s); [exact hc|]. intros j s hj hi. apply cand_ok; auto.
      - intros s hi. cbv beta in hi. destruct hi as [c1 c2 c3 c4].
        assert (hpl : length (ps_med s) = k).
        { destruct c1 as [->|(x & _ & _ & ->)]; [auto|apply swap_len]. }
        rewrite upd_ok by lia. cbn [bind oks].
        assert (em : set_nth (ps_med s) m (nth m med 0) = med).
        { destruct c1 as [->|(x & _ & _ & ->)]; [apply set_nth_same|].
          change (set_nth (set_nth med m x) m (nth m med 0) = med). rewrite swap_swap. apply set_nth_same. }
        rewrite em. split; [|auto]. constructor; cbn [ps_med ps_assi ps_best]; auto.
        intros b j s' h1 h2 h3 h4 h5. apply c4 with b j; auto. lia.
    Qed.

    Lemma search_ok assi : assi_ok assi ->
      oks (foldM (pamsil_pos M) (seq 0 k) (mkPs med assi (lzero, None))) (fun s =>
        ps_med s = med /\ assi_ok (ps_assi s) /\ best_ok med (ps_best s) /\
        cov med k 0 (fst (ps_best s))).
    Proof.
      intros ha. eapply oks_mono.
      - apply foldM_seq with (I := fun m s => cinv m 0 s /\ ps_med s = med).
        + split; [|auto]. constructor; cbn [ps_med ps_assi ps_best]; auto.
          * split; cbn [fst snd]; [auto|]. intros f _. split; [lra|]. congruence.
          * intros b j s h. lia.
        + intros m s hm [h1 h2]. apply pos_ok; auto.
      - intros s [[c1 c2 c3 c4] h]. auto.
    Qed.
  End Search.

  (** no swap for an object which is no medoid has a larger silhouette than [x] *)
  Definition sv_optimal (med : list nat) (x : Lt) : Prop :=
    forall b j s, b < k -> j < n -> ~ In j med -> sv (set_nth med b j) = Ok s ->
    forall f : Lt -> Q, ordf f -> (f s <= f x)%Q.

  Record linv (st : pslst Lt) : Prop := {
    li_len : length (pl_med st) = k;
    li_inr : inr n (pl_med st);
    li_assi : assi_ok (pl_assi st);
    li_val : is_val (pl_sil st)
  }.

  Lemma iteration_cases st : linv st ->
    match pamsil_iteration M st with
    | Ok (Break s) => linv s /\ pl_med s = pl_med st /\ pl_sil s = pl_sil st /\ pl_swaps s = pl_swaps st /\
        pl_iter s = S (pl_iter st) /\ sv_optimal (pl_med s) (pl_sil s) /\
        (forall f : Lt -> Q, ordf f -> (f lzero <= f (pl_sil s))%Q) /\
        (lleb lzero (pl_sil st) = true \/
         exists b j s', b < k /\ j < n /\ sv (set_nth (pl_med st) b j) = Ok s' /\ lleb s' lzero = false)
    | Ok (Next s) => linv s /\ (exists b j, b < k /\ j < n /\ pl_med s = set_nth (pl_med st) b j) /\
        sv (pl_med s) = Ok (pl_sil s) /\ pl_swaps s = S (pl_swaps st) /\ pl_iter s = S (pl_iter st) /\
        lleb (pl_sil s) (pl_sil st) = false /\ sv_optimal (pl_med st) (pl_sil s) /\
        (exists b j s', b < k /\ j < n /\ sv (set_nth (pl_med st) b j) = Ok s' /\ lleb s' lzero = false) /\
        (forall f : Lt -> Q, ordf f -> (f lzero < f (pl_sil s))%Q)
    | Panic p => p = P_index /\ lleb lzero (pl_sil st) = false /\ sv_optimal (pl_med st) lzero
    end.
  Proof.
    intros [h1 h2 h3 h4]. unfold pamsil_iteration. rewrite h1.
    pose proof (search_ok h1 h2 h3) as h. apply oks_inv in h as (s & e & e1 & e2 & e3 & e4).
    rewrite e. cbn [bind].
    pose proof (best_val h1 h2 e3) as hvb.
    assert (e4' : sv_optimal (pl_med st) (fst (ps_best s))).
    { intros b j s' q1 q2 q3 q4. apply e4 with b j; auto. }
    destruct (lleb (fst (ps_best s)) (pl_sil st)) eqn:el.
    - split; [constructor; cbn [pl_med pl_assi pl_sil]; rewrite ?e1; auto|]. cbn [pl_med pl_sil pl_swaps pl_iter].
      repeat (split; [solve [auto]|]). split.
      + rewrite e1. intros b j s' q1 q2 q3 q4 f hf. apply Qle_trans with (f (fst (ps_best s))); [eapply e4'; eauto|].
        apply hf; auto.
      + split.
        * intros f hf. apply Qle_trans with (f (fst (ps_best s))); [apply e3; auto|]. apply hf; auto.
        * destruct e3 as [e3 _]. destruct (snd (ps_best s)) as [[b j]|]; [right; apply e3|].
          left. rewrite <- e3. auto.
    - destruct (ps_best s) as [x [[b j]|]] eqn:eb; cbn [fst snd] in *.
      + destruct e3 as [(b1 & b2 & b3 & b4) b5]. cbn [fst snd] in *. rewrite upd_ok by (rewrite e1; lia).
        cbn [bind]. rewrite e1. split.
        { constructor; cbn [pl_med pl_assi pl_sil]; [apply swap_len|apply swap_inr| |]; auto. }
        cbn [pl_med pl_sil pl_swaps pl_iter]. split; [exists b, j; auto|].
        repeat (split; [solve [auto]|]). intros f hf. apply (b5 f hf). congruence.
      + destruct e3 as [e3 _]. cbn [fst snd] in e3. rewrite e3 in *. auto.
  Qed.

  (** number of medoid lists with a silhouette above [x] *)
  Definition above (f : Lt -> Q) (x : Q) : nat :=
    length (filter (fun l => match sv l with Ok s => Qlt_bool x (f s) | Panic _ => false end) (all_lists n k)).

  Lemma above_lt f x med s : length med = k -> inr n med -> sv med = Ok s -> (x < f s)%Q -> above f (f s) < above f x.
  Proof.
    intros h1 h2 h3 h4. apply filter_length_lt with (x := med).
    - intros y h. destruct (sv y); [|auto]. apply Qlt_bool_iff in h. apply Qlt_bool_iff. lra.
    - apply in_all_lists; auto.
    - rewrite h3. apply Qlt_bool_iff. auto.
    - rewrite h3. destruct (Qlt_bool (f s) (f s)) eqn:e; auto. apply Qlt_bool_iff in e. lra.
  Qed.

  Lemma above_bound f x : above f x <= n ^ k.
  Proof. unfold above. rewrite <- (length_all_lists n k). generalize (all_lists n k). intros l. induction l as [|a l IH]; cbn; [lia|]. destruct (match sv a with Ok s => _ | Panic _ => _ end); cbn; lia. Qed.

  Lemma above_bound_lt f med s : length med = k -> inr n med -> sv med = Ok s -> above f (f s) < n ^ k.
  Proof.
    intros h1 h2 h3. apply Nat.lt_le_trans with (above f (f s - 1)%Q); [|apply above_bound].
    apply above_lt with med; auto. lra.
  Qed.

  Record prun (maxiter : nat) (st0 st : pslst Lt) : Prop := {
    pr_inv : linv st;
    pr_iter : pl_iter st <= maxiter;
    pr_none : pl_swaps st = 0 -> pl_med st = pl_med st0 /\ pl_sil st = pl_sil st0;
    pr_some : 0 < pl_swaps st -> sv (pl_med st) = Ok (pl_sil st);
    pr_up : forall f, ordf f -> 0 < pl_swaps st -> (f (pl_sil st0) < f (pl_sil st))%Q /\ (f lzero < f (pl_sil st))%Q;
    pr_end : pl_iter st = S (pl_swaps st) /\ sv_optimal (pl_med st) (pl_sil st) /\
               (forall f, ordf f -> (f lzero <= f (pl_sil st))%Q) \/
             pl_iter st = pl_swaps st /\ pl_iter st = maxiter;
    pr_bound : forall f, ordf f -> pl_swaps st + above f (f (pl_sil st)) <= above f (f (pl_sil st0));
    pr_first : 0 < maxiter -> lleb (lzero : Lt) (pl_sil st0) = true \/
      exists b j s, b < k /\ j < n /\ sv (set_nth (pl_med st0) b j) = Ok s /\ lleb s lzero = false
  }.

  Lemma loop_wk maxiter st0 : linv st0 -> pl_swaps st0 = 0 -> pl_iter st0 = 0 ->
    wk (whileM maxiter (pamsil_iteration M) st0) (prun maxiter st0).
  Proof.
    intros hi h0 h0'.
    apply whileM_wk with (I := fun i st => linv st /\ pl_iter st = i /\ pl_swaps st = i /\
      (i = 0 -> st = st0) /\ (0 < i -> sv (pl_med st) = Ok (pl_sil st)) /\
      (forall f, ordf f -> 0 < i -> (f (pl_sil st0) < f (pl_sil st))%Q /\ (f lzero < f (pl_sil st))%Q) /\
      (forall f, ordf f -> i + above f (f (pl_sil st)) <= above f (f (pl_sil st0))) /\
      (0 < i -> exists b j s, b < k /\ j < n /\ sv (set_nth (pl_med st0) b j) = Ok s /\ lleb s lzero = false)).
    - repeat (split; [solve [auto]|]). repeat split; auto; intros; lia.
    - intros i st hlt (i1 & i2 & i3 & i4 & i5 & i6 & i7 & i8).
      pose proof (iteration_cases i1) as h.
      destruct (pamsil_iteration M st) as [[s|s]|p]; cbn [wk]; auto.
      + destruct h as (g1 & (b & j & g2 & g3 & g4) & g5 & g6 & g7 & g8 & g9 & g10 & g11).
        split; [auto|]. split; [lia|]. split; [lia|]. split; [lia|]. split; [auto|].
        assert (hst : forall f, ordf f -> (f (pl_sil st0) <= f (pl_sil st))%Q).
        { intros f hf. destruct (Nat.eq_dec i 0) as [e|e]; [rewrite (i4 e); lra|].
          destruct (i6 f hf ltac:(lia)). lra. }
        split; [|split].
        * intros f hf _. split; [|auto]. specialize (hst f hf). pose proof (ordf_gt hf (li_val g1) (li_val i1) g8). lra.
        * intros f hf. specialize (i7 f hf). pose proof (ordf_gt hf (li_val g1) (li_val i1) g8) as hgt. destruct g1 as [l1 l2 _ _].
          pose proof (above_lt f l1 l2 g5 hgt). lia.
        * intros _. destruct (Nat.eq_dec i 0) as [e|e]; [|apply i8; lia].
          rewrite <- (i4 e). exact g10.
      + destruct h as (g1 & g2 & g3 & g4 & g5 & g6 & g7 & g8). constructor; auto.
        * lia.
        * intros e. rewrite g2, g3, (i4 ltac:(lia)). auto.
        * intros e. rewrite g2, g3. apply i5. lia.
        * intros f hf e. rewrite g3. apply i6; auto. lia.
        * left. split; [lia|auto].
        * intros f hf. rewrite g3, g4. specialize (i7 f hf). lia.
        * intros _. destruct (Nat.eq_dec i 0) as [e|e]; [|right; apply i8; lia].
          rewrite (i4 e) in *. auto.
    - intros st (i1 & i2 & i3 & i4 & i5 & i6 & i7 & i8). constructor; auto.
      + lia.
      + intros e. rewrite i4 by lia. auto.
      + intros e. apply i5. lia.
      + intros f hf e. apply i6; auto. lia.
      + right. lia.
      + intros f hf. rewrite i3. auto.
  Qed.

  (** panics only in the first iteration, and only from a negative silhouette *)
  Lemma loop_panic (f : Lt -> Q) fuel st p : ordf f -> linv st -> whileM fuel (pamsil_iteration M) st = Panic p ->
    p = P_index /\ 0 < fuel /\ (f (pl_sil st) < f lzero)%Q /\ sv_optimal (pl_med st) lzero.
  Proof.
    intros hf hi e.
    assert (G : forall fuel st, linv st -> (f lzero <= f (pl_sil st))%Q -> whileM fuel (pamsil_iteration M) st <> Panic p).
    { clear - hf HM hs. induction fuel as [|fuel IH]; intros st hi hz; cbn [whileM]; [congruence|].
      pose proof (iteration_cases hi) as h. destruct (pamsil_iteration M st) as [[s|s]|p']; cbn [bind]; [|congruence|].
      - apply IH; [apply h|]. destruct h as (_ & _ & _ & _ & _ & _ & _ & _ & h). specialize (h f hf). lra.
      - destruct h as (_ & h & _). apply hf in hz; [congruence|apply val_zero|apply hi]. }
    destruct fuel as [|fuel]; cbn [whileM] in e; [congruence|].
    pose proof (iteration_cases hi) as h. destruct (pamsil_iteration M st) as [[s|s]|p']; cbn [bind] in e; [|congruence|].
    - exfalso. revert e. apply G; [apply h|]. destruct h as (_ & _ & _ & _ & _ & _ & _ & _ & h). specialize (h f hf). lra.
    - injection e as <-. destruct h as (h1 & h2 & h3). split; [auto|]. split; [lia|]. split; [apply ordf_gt; auto; [apply val_zero|apply hi]|auto].
  Qed.

  Lemma loop_panics fuel st : linv st -> lleb lzero (pl_sil st) = false ->
    (forall b j s, b < k -> j < n -> sv (set_nth (pl_med st) b j) = Ok s -> lleb s lzero = true) ->
    whileM (S fuel) (pamsil_iteration M) st = Panic P_index.
  Proof.
    intros hi h0 ha. cbn [whileM]. pose proof (iteration_cases hi) as h.
    assert (no : ~ exists b j s', b < k /\ j < n /\ sv (set_nth (pl_med st) b j) = Ok s' /\ lleb s' lzero = false).
    { intros (b & j & s & h1 & h2 & h3 & h4). rewrite (ha b j s h1 h2 h3) in h4. discriminate. }
    destruct (pamsil_iteration M st) as [[s|s]|p]; cbn [bind].
    - exfalso. apply no, h.
    - exfalso. destruct h as (_ & _ & _ & _ & _ & _ & _ & [h|h]); [congruence|tauto].
    - destruct h as [-> _]. auto.
  Qed.

  (** the result of pamsil_optimize, two or more medoids *)
  Definition pfin (maxiter : nat) (med : list nat) (sil0 : Lt) (r : pam_result Lt) : Prop :=
    exists st assi loss, prun maxiter (mkPsl med assi sil0 0 0) st /\
      r_loss r = pl_sil st /\ r_med r = pl_med st /\ r_iter r = pl_iter st /\ r_swaps r = pl_swaps st /\
      assign_nearest (Lt := Lt) M (r_med r) = Ok (loss, r_assi r) /\ assi_ok (r_assi r).

  Lemma optimize_wk med assi sil0 vec maxiter : 2 <= k -> length med = k -> inr n med -> assi_ok assi -> is_val sil0 ->
    silhouette (Lt := Lt) M assi false = Ok (sil0, vec) ->
    wk (pamsil_optimize M med assi maxiter) (pfin maxiter med sil0).
  Proof.
    intros hk hl hin ha hv e. unfold pamsil_optimize. rewrite hl.
    destruct (Nat.eqb_spec k 1); [lia|]. rewrite e. cbn [bind].
    eapply wk_bind; [apply loop_wk; [constructor; auto|auto|auto]|].
    intros st hr. cbv beta in hr. pose proof hr as [[l1 l2 l3 l4] _ _ _ _ _ _ _].
    destruct (sv_ok l1 l2) as (loss & assi' & s & e1 & e2 & e3 & e4). rewrite e1. cbn [bind wk].
    exists st, assi, loss. cbn [r_loss r_med r_iter r_swaps r_assi]. auto 10.
  Qed.

  Lemma optimize_loop med assi sil0 vec maxiter p : 2 <= k -> length med = k ->
    silhouette (Lt := Lt) M assi false = Ok (sil0, vec) -> inr n med -> assi_ok assi -> is_val sil0 ->
    pamsil_optimize M med assi maxiter = Panic p <->
    whileM maxiter (pamsil_iteration M) (mkPsl med assi sil0 0 0) = Panic p.
  Proof.
    intros hk hl e hin ha hv. unfold pamsil_optimize. rewrite hl.
    destruct (Nat.eqb_spec k 1); [lia|]. rewrite e. cbn [bind].
    pose proof (@loop_wk maxiter (mkPsl med assi sil0 0 0) ltac:(constructor; auto) eq_refl eq_refl) as h.
    destruct (whileM _ _ _) as [st|p']; cbn [bind wk] in *; [|split; intros q; injection q as ->; auto].
    destruct h as [[l1 l2 l3 l4] _ _ _ _ _ _ _].
    destruct (sv_ok l1 l2) as (loss & assi' & s & e1 & e2 & e3 & e4). rewrite e1. cbn [bind]. split; congruence.
  Qed.
End Shape.

(** ** the assignment, for every loss type *)
Section Assign.
  Context {Nt Lt : Type} `{HO : OrdLaws Nt} `{HNL : NumL Lt} `{HFN : FromN Nt Lt}.
  Variable M : Mat Nt.
  Variable n : nat.
  Variable D : nat -> nat -> Nt.
  Hypothesis HD : diss_matrix M n D.
  Notation v := (vals D).
  Let HM : is_matrix M n D := proj1 HD.

  Lemma assign_first med : sizes n (length med) -> medoids n (length med) med ->
    oks (assign_nearest (Lt := Lt) M med) (fun p => assigned_first v n med (snd p)).
  Proof.
    intros hs (_ & hnd & hin). destruct (emb_vals HD) as [he _].
    eapply oks_mono; [apply (assign_nearest_ok HM hs hin)|].
    intros [loss assi] (h1 & h2 & _). cbn [snd] in *. split; [auto|]. intros o ho.
    destruct (h2 o ho) as (a1 & a2 & a3 & a4). split; [auto|]. split.
    - intros hi. apply In_nth with (d := 0) in hi as (m & hm & em). cbv zeta. rewrite (a3 v he hnd m hm em). auto.
    - intros hno. split; [apply a2; auto|]. apply a4; auto.
  Qed.

  Lemma assigned_first_unique med assi assi' : NoDup med ->
    assigned_first v n med assi -> assigned_first v n med assi' -> assi = assi'.
  Proof.
    intros hnd [h1 h2] [h1' h2']. apply nth_ext with (d := 0) (d' := 0); [congruence|]. intros o ho. rewrite h1 in ho.
    destruct (h2 o ho) as (a1 & a2 & a3). destruct (h2' o ho) as (b1 & b2 & b3).
    destruct (in_dec Nat.eq_dec o med) as [hi|hi].
    - apply (proj1 (NoDup_nth med 0) hnd); auto. rewrite a2, b2; auto.
    - destruct (a3 hi) as [[_ n1] f1]. destruct (b3 hi) as [[_ n2] f2].
      destruct (Nat.lt_trichotomy (nth o assi 0) (nth o assi' 0)) as [hlt|[e|hlt]]; [|auto|]; exfalso.
      + specialize (f2 _ hlt). specialize (n1 _ b1). lra.
      + specialize (f1 _ hlt). specialize (n2 _ a1). lra.
  Qed.

  Lemma assigned_first_dense med assi : medoids n (length med) med -> assigned_first v n med assi ->
    dense (length med) assi.
  Proof.
    intros (_ & hnd & hin) [h1 h2] c. split.
    - intros hc. apply In_nth with (d := 0) in hc as (o & ho & <-). destruct (h2 o ltac:(lia)) as (a1 & _). exact a1.
    - intros hc. assert (hn : nth c med 0 < n) by (apply inr_nth; auto).
      destruct (h2 _ hn) as (a1 & a2 & _). specialize (a2 (nth_In _ _ hc)).
      apply (proj1 (NoDup_nth med 0) hnd) in a2; auto. rewrite <- a2. apply nth_In. lia.
  Qed.
End Assign.

(** ** exact arithmetic *)
Section Exact.
  Context {Nt Lt : Type} `{HLL : LossLaws Nt Lt} `{HDL : !DivLaws Nt Lt}.
  Variable M : Mat Nt.
  Variable n : nat.
  Variable D : nat -> nat -> Nt.
  Hypothesis HD : diss_matrix M n D.
  Notation v := (vals D).
  Let HM : is_matrix M n D := proj1 HD.

  Lemma ordf_vL k : ordf M n k (vL : Lt -> Q).
  Proof. intros x y _ _. apply lleb_spec. Qed.

  (** with distinct medoids, the cached value is the silhouette of the clustering *)
  Lemma sv_mean med s assi : sizes n (length med) -> 2 <= length med -> medoids n (length med) med ->
    sv M med = Ok s -> assigned_first v n med assi -> (vL s == sil_mean v assi)%Q.
  Proof.
    intros hs hk hm e ha. unfold sv in e.
    pose proof (assign_first (Lt := Lt) HD hs hm) as h. apply oks_inv in h as ([loss assi'] & e' & h'). cbn [snd] in h'.
    rewrite e' in e. cbn [bind] in e. rewrite (assigned_first_unique (proj1 (proj2 hm)) h' ha) in e.
    pose proof (assigned_first_dense hm ha) as hde.
    assert (hw : width assi <> 1) by (rewrite (dense_width (K := length med)); auto; lia).
    assert (hl : length assi = n) by apply ha.
    pose proof (silhouette_ok (Lt := Lt) (diss_nonneg _ _ _ HD) assi false) as h.
    assert (hs1 : 1 <= length assi <= n) by (destruct hs; lia). specialize (h hs1).
    assert (hs2 : (N.of_nat (length assi) <= 4294967295)%N) by (rewrite hl; apply hs).
    specialize (h hs2 hw). apply oks_inv in h as ([x vec] & ex & hx & _). rewrite ex in e. cbn [bind] in e.
    injection e as <-. cbn [fst] in hx. rewrite hx.
    unfold code_mean, sil_mean. rewrite (sumQ_ext _ (sil_object v assi)); [reflexivity|].
    intros i hi. apply in_seq in hi. apply (code_sil_dense D (K := length med)); auto. apply nth_error_nth'. lia.
  Qed.

  (** ** BUILD *)
  Record pb_good (l : nat) (st : list nat * list Nt) : Prop := {
    pb_len : length (fst st) = l;
    pb_inr : inr n (fst st);
    pb_dn : dn_ok n D (fst st) (snd st);
    pb_greedy : greedy v n (fst st);
    pb_new : NoDup (fst st) \/ (tdev v n (fst st) == 0)%Q
  }.

  Lemma pb_step k l st t : 1 <= n -> 1 <= l -> pb_good l st ->
    oks (pamsil_build_step (Lt := Lt) M k st t) (fun s => pb_good (S l) s /\
      fst s = fst st ++ [best_next v n (fst st)]).
  Proof.
    intros hn hl hg. destruct st as [meds data]. pose proof hg as [h1 h2 h3 h4 h5]. cbn [fst snd] in *.
    assert (hne : meds <> []) by (destruct meds; simpl in *; [lia|congruence]).
    unfold pamsil_build_step. rewrite map_fst_enum. pose proof h3 as [d1 d2]. rewrite d1.
    pose proof (build_next_ok HD k hn hne h2 h3) as hb.
    apply oks_inv in hb as ([x bj] & -> & hbj & hx & hmin & hfst). cbn [bind fst snd] in *.
    pose proof (gain_nonpos n D bj hne) as hnp.
    assert (e : lleb x lzero = true) by (apply lleb_spec; rewrite vL_zero, hx; auto).
    rewrite e. cbn [assertb bind]. eapply oks_bind.
    - apply mapM_enum with (R := fun o (d d' : Nt) => okN d' /\ (vN d' == mindist v o (meds ++ [bj]))%Q).
      intros o d ho. destruct (d2 o d ho) as [k1 k2].
      assert (hon : o < n) by (rewrite <- d1; eapply nth_error_lt; eauto).
      unfold pamsil_upd_obj. destruct (Nat.eqb_spec o bj) as [->|hob].
      + cbn [oks]. split; [apply okN_zero|]. rewrite vN_zero. symmetry.
        apply (mindist_self (meds ++ [bj]) (v_diss HD) hbj (inr_app h2 hbj)). apply in_or_app. simpl. auto.
      + rewrite (get_ok HM) by auto. cbn [bind oks]. assert (kd : okN (D o bj)) by (apply (okD HD); auto).
        pose proof (mindist_snoc v o bj hne) as hmd. revert hmd.
        destruct (nltb (D o bj) d) eqn:el.
        * apply nltb_spec in el; auto. rewrite k2 in el. change (vN (D o bj)) with (v o bj) in el.
          destruct (Qlt_le_dec (v o bj) (mindist v o meds)); intros hmd; [|lra]. split; [auto|]. rewrite hmd. reflexivity.
        * assert (hge : ~ (v o bj < mindist v o meds)%Q).
          { intros h. rewrite <- k2 in h. apply nltb_spec in h; auto. congruence. }
          destruct (Qlt_le_dec (v o bj) (mindist v o meds)); intros hmd; [tauto|]. split; [auto|]. rewrite hmd. auto.
    - intros data' [e1 e2]. cbn [oks]. split.
      2:{ cbn [fst]. f_equal. f_equal. symmetry.
          apply first_index with (f := fun y => tdev v n (meds ++ [y])); auto.
          - intros y hy. specialize (hmin y hy). unfold gain in hmin. lra.
          - intros y hy. specialize (hfst y hy). unfold gain in hfst. lra. }
      constructor; cbn [fst snd].
      + rewrite app_length. simpl. lia.
      + apply inr_app; auto.
      + split; [lia|]. intros o d' hd'. destruct (nth_error_ex data (i := o)) as [d hd].
        { rewrite <- e1. eapply nth_error_lt; eauto. }
        eapply e2; eauto.
      + apply greedy_snoc; auto. intros y hy. specialize (hmin y hy). unfold gain in hmin. lra.
      + assert (ht : (tdev v n (meds ++ [bj]) <= tdev v n meds)%Q) by (unfold gain in hnp; lra).
        assert (hp : (0 <= tdev v n (meds ++ [bj]))%Q).
        { apply sumQ_nonneg. intros o ho. apply in_seq in ho.
          apply mindist_nonneg with n; [apply (v_diss HD)|lia|apply inr_app; auto]. }
        destruct h5 as [h5|h5]; [|right; lra].
        destruct (Qlt_le_dec (gain n D meds bj) 0) as [hlt|hge].
        * left. apply NoDup_snoc; auto. apply (gain_new hne hlt).
        * right. assert (hz : (tdev v n meds == 0)%Q); [|lra].
          apply (gain_zero HD); auto. intros y hy. specialize (hmin y hy). lra.
  Qed.

  Lemma pamsil_build_ok k : 1 <= n -> 1 <= k ->
    oks (pamsil_build_initialize (Lt := Lt) M k) (fun meds => length meds = k /\ inr n meds /\ greedy v n meds /\
      (NoDup meds \/ (tdev v n meds == 0)%Q) /\ meds = grow_all v n (k - 1) [best_next v n []]).
  Proof.
    intros hn hk. unfold pamsil_build_initialize.
    pose proof (build_first_ok HD k hn) as hf.
    apply oks_inv in hf as ([x b] & -> & hb & hx & hmin & hfst). cbn [bind fst snd] in *. rewrite (len_n HM).
    assert (hbn : best_next v n [] = b) by (apply first_index with (f := fun y => tdev v n [y]); auto).
    eapply oks_bind.
    - apply mapM_seq with (R := fun o d => d = D o b). intros o ho. rewrite (get_ok HM) by auto. cbn [oks]. auto.
    - intros data [hl hd]. eapply oks_bind with (P := fun s => pb_good k s /\ fst s = grow_all v n (k - 1) [b]).
      + assert (h0 : pb_good 1 ([b], data)).
        { constructor; cbn [fst snd]; auto.
          - intros m [<-|[]]. auto.
          - split; [auto|]. intros o d ho. assert (hon : o < n) by (rewrite <- hl; eapply nth_error_lt; eauto).
            rewrite (hd o d ho). split; [apply (okD HD); auto|]. unfold mindist. simpl. reflexivity.
          - intros i y hi hy. simpl in hi. assert (i = 0) as -> by lia. simpl. auto.
          - left. constructor; auto. constructor. }
        assert (G : forall m l st, 1 <= l -> pb_good l st ->
          oks (foldM (pamsil_build_step (Lt := Lt) M k) (seq l m) st) (fun s => pb_good (l + m) s /\
            fst s = grow_all v n m (fst st))).
        { induction m as [|m IH]; intros l st hl1 hg; cbn [seq foldM].
          - cbn [oks]. rewrite Nat.add_0_r. split; auto.
          - eapply oks_bind; [apply pb_step; eauto|]. intros st' [hg' hst'].
            replace (l + S m) with (S l + m) by lia. cbn [grow_all]. rewrite <- hst'. apply IH; [lia|auto]. }
        specialize (G (k - 1) 1 ([b], data) ltac:(lia) h0). replace (1 + (k - 1)) with k in G by lia. auto.
      + intros [meds d'] [[q1 q2 q3 q4 q5] q6]. cbn [fst snd oks] in *. rewrite hbn. auto 10.
  Qed.
End Exact.
