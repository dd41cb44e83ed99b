(** P_IntSilMachine.v -- property C84 for machine integers: with w-bit losses the silhouettes and pamsil
    give the results of unbounded integers (P_IntSil.v), as long as [3 * n * m] is in range for
    dissimilarities up to [m].
    Every theorem is followed by a concrete input which meets its hypotheses. *)
From Coq Require Import ZArith QArith Qminmax Lqa Lia Permutation.
From Verif Require Import Base Num M_Mat M_Util M_Fasterpam M_Pam M_Alternating M_Silhouette M_Pamsil Inst Hoare Spec SpecFacts
  Laws SortFacts PamShape PamExact Reference LocalSearch FpFacts ChooseFacts BuildFacts AltFacts SilFacts PamsilFacts
  Bounded BoundedMain Adapter Ex P_Silhouette P_IntSil P_Bounded P_Checked.
Open Scope nat_scope.

(** the same outcome, the results related by [f] *)
Definition via {A A'} (f : A' -> A) (x : res A) (y : res A') : Prop :=
  match y with Ok a => x = Ok (f a) | Panic p => x = Panic p end.

Lemma rr_via {A A'} (f : A' -> A) x y : rr (fun a a' => a = f a') x y <-> via f x y.
Proof. destruct x, y; cbn; split; intros h; try congruence; try tauto; try discriminate. Qed.

Section Machine.
  Variable w : Z.
  Variable M : Mat Z.
  Variable n : nat.
  Variable D : nat -> nat -> Z.
  Variable m : Z.
  Hypothesis hw : (1 <= w)%Z.
  Hypothesis HM : is_matrix M n D.
  Hypothesis Hget : forall x y d, mget M x y = Ok d -> (0 <= d <= m)%Z.
  Hypothesis hm : (0 <= m)%Z.
  Hypothesis HB : (3 * Z.of_nat n * m <= imax w)%Z.
  Hypothesis hn : (Z.of_nat n <= imax w)%Z.

  Definition emb (p : nat * Z) : nat * mint w := (fst p, MInt (snd p)).
  Local Notation mi := (fun z : Z => MInt z : mint w).

  Lemma nmB t : t <= n -> (Z.of_nat t * m <= imax w)%Z.
  Proof. intros h. nia. Qed.

  Lemma wid z : (Z.abs z <= imax w)%Z -> wrap w z = z.
  Proof. apply wrap_id. auto. Qed.

  Definition small_buf (t : nat) (buf : list (nat * Z)) : Prop :=
    forall p, In p buf -> fst p <= t /\ (0 <= snd p <= Z.of_nat t * m)%Z.

  Lemma map_set_nth A B (f : A -> B) l i a : map f (set_nth l i a) = set_nth (map f l) i (f a).
  Proof. revert i. induction l as [|x l IH]; intros [|i]; cbn; auto. f_equal. auto. Qed.

  Lemma In_set_nth A (l : list A) i a x : In x (set_nth l i a) -> x = a \/ In x l.
  Proof. revert i. induction l as [|y l IH]; intros [|i]; cbn; try tauto; intros [h|h]; auto. apply IH in h. tauto. Qed.

  Lemma sil_buf_mint assi i : length assi <= n ->
    rr (fun b b' => b = map emb b' /\ small_buf (length assi) b') (sil_buf (Lt := mint w) M assi i) (sil_buf (Lt := Z) M assi i).
  Proof.
    intros hl. unfold sil_buf. eapply rr_mono.
    - apply rr_foldM with (I := fun t (b : list (nat * mint w)) (b' : list (nat * Z)) => b = map emb b' /\ small_buf t b').
      + intros t [j a] b b' ht [-> hb].
        assert (hlt : t < length assi).
        { rewrite <- (length_enum assi). apply nth_error_Some. congruence. }
        assert (eg : M_Silhouette.grow (map emb b') a = map emb (M_Silhouette.grow b' a)).
        { unfold M_Silhouette.grow. rewrite map_app, map_length. f_equal. generalize (S a - length b'). induction n0; cbn; [auto|]. f_equal. auto. }
        rewrite eg.
        assert (hg : small_buf t (M_Silhouette.grow b' a)).
        { intros p hp. unfold M_Silhouette.grow in hp. apply in_app_or in hp as [hp|hp]; [auto|]. apply repeat_spec in hp. subst p. cbn. nia. }
        assert (hmono : forall b, small_buf t b -> small_buf (S t) b).
        { intros b0 h p hp. destruct (h p hp). split; [lia|nia]. }
        cbv zeta. destruct (negb (i =? j)); [|cbn [rr]; auto].
        unfold idx. rewrite nth_error_map. destruct (nth_error (M_Silhouette.grow b' a) a) as [p|] eqn:ep; cbn [option_map bind rr]; [|auto].
        destruct (mget M i j) as [d|q] eqn:ed; cbn [bind rr]; [|auto].
        unfold upd. rewrite map_length. destruct (a <? length (M_Silhouette.grow b' a)); cbn [rr]; [|auto].
        apply nth_error_In in ep. destruct (hg p ep) as [p1 p2]. pose proof (Hget _ _ _ ed) as hd.
        split.
        * rewrite map_set_nth. f_equal. unfold emb. cbn [fst snd ladd lfrom NumL_mint NumL_Z FromN_Z_Z FromN_Z_mint ival].
          pose proof (nmB (length assi) hl). f_equal. f_equal. rewrite (wid d) by nia. apply wid. nia.
        * intros x hx. apply In_set_nth in hx as [->|hx]; [|apply (hmono _ hg x hx)].
          cbn [fst snd ladd lfrom NumL_Z FromN_Z_Z]. split; [lia|nia].
      + split; [reflexivity|]. intros p [].
    - cbv beta. rewrite length_enum. auto.
  Qed.

  Lemma buf_mean_mint t p : t <= n -> fst p <= t -> (0 <= snd p <= Z.of_nat t * m)%Z ->
    buf_mean (emb p) = MInt (buf_mean p) /\ (0 <= buf_mean p <= imax w)%Z.
  Proof.
    intros ht h1 h2. pose proof (nmB t ht). unfold buf_mean, checked_div, emb.
    cbn [fst snd lltb ldiv lzero lfrom_u32 NumL_mint NumL_Z ival]. rewrite nat_N_Z, (wid (Z.of_nat (fst p))) by lia.
    destruct (Z.ltb_spec 0 (Z.of_nat (fst p))) as [h|h]; [|cbn; split; [reflexivity|lia]].
    assert (hq : (0 <= Z.quot (snd p) (Z.of_nat (fst p)) <= snd p)%Z).
    { rewrite Z.quot_div_nonneg by lia. split; [apply Z.div_pos; lia|]. apply Z.div_le_upper_bound; nia. }
    rewrite wid by lia. split; [reflexivity|lia].
  Qed.

  Lemma fold_min_mint (ts : list Z) t :
    fold_left (fun x y => if lltb y x then y else x) (map mi ts) (mi t) =
    mi (fold_left (fun x y => if lltb y x then y else x) ts t).
  Proof.
    revert t. induction ts as [|y ts IH]; intros t; cbn [fold_left map]; [reflexivity|].
    rewrite <- IH. f_equal. cbn [lltb NumL_mint NumL_Z ival]. destruct (y <? t)%Z; reflexivity.
  Qed.

  Lemma fold_min_range (ts : list Z) t : (forall x, In x (t :: ts) -> (0 <= x <= imax w)%Z) ->
    (0 <= fold_left (fun x y => if lltb y x then y else x) ts t <= imax w)%Z.
  Proof.
    revert t. induction ts as [|y ts IH]; intros t h; cbn [fold_left]; [apply h; simpl; auto|].
    apply IH. intros x [<-|hx]; [destruct (lltb y t)|]; apply h; simpl; auto.
  Qed.

  Lemma tmp_mint a buf s : small_buf n buf ->
    let tmp := map (fun '(_, p) => buf_mean p) (filter (fun '(i, _) => negb (i =? a)) (combine (seq s (length buf)) buf)) in
    map (fun '(_, p) => buf_mean p) (filter (fun '(i, _) => negb (i =? a)) (combine (seq s (length buf)) (map emb buf))) =
      map mi tmp /\ forall x, In x tmp -> (0 <= x <= imax w)%Z.
  Proof.
    revert s. induction buf as [|q buf IH]; intros s hb; cbv zeta; cbn [map length seq combine filter]; [split; [reflexivity|intros x []]|].
    assert (hb' : small_buf n buf) by (intros x hx; apply hb; simpl; auto).
    destruct (IH (S s) hb') as [IH1 IH2]. destruct (hb q (or_introl eq_refl)) as [q1 q2].
    destruct (buf_mean_mint n q (le_n n) q1 q2) as [e r].
    destruct (negb (s =? a)); cbn [map]; [|auto]. rewrite e, IH1. split; [reflexivity|]. intros x [<-|hx]; auto.
  Qed.

  Lemma sil_of_buf_mint buf a : small_buf n buf -> (1 <= imax w)%Z ->
    rr (fun s s' => s = mi s' /\ (Z.abs s' <= 1)%Z) (sil_of_buf (map emb buf) a) (sil_of_buf buf a).
  Proof.
    intros hb h1. unfold sil_of_buf, idx. rewrite nth_error_map.
    destruct (nth_error buf a) as [p|] eqn:ep; cbn [option_map bind rr]; [|auto].
    apply nth_error_In in ep. destruct (hb p ep) as [p1 p2].
    destruct (buf_mean_mint n p (le_n n) p1 p2) as [ea ra].
    change (fst (emb p)) with (fst p). destruct (0 <? fst p); cbn [rr]; [|cbn; split; [reflexivity|lia]].
    destruct (tmp_mint a buf 0 hb) as [et er]. rewrite <- (map_length emb buf) in et at 1.
    fold (enum (map emb buf)) in et. fold (enum buf) in et, er. rewrite et.
    set (tmp := map (fun '(_, p) => buf_mean p) (filter (fun '(i, _) => negb (i =? a)) (enum buf))) in *.
    set (b := match tmp with [] => lzero | t :: ts => fold_left (fun x y => if lltb y x then y else x) ts t end).
    assert (eb : match map mi tmp with [] => lzero | t :: ts => fold_left (fun x y => if lltb y x then y else x) ts t end = mi b).
    { unfold b. destruct tmp as [|t ts]; [reflexivity|]. cbn [map]. apply fold_min_mint. }
    rewrite eb, ea.
    assert (rb : (0 <= b <= imax w)%Z).
    { unfold b. destruct tmp as [|t ts]; [cbn; lia|]. apply fold_min_range. auto. }
    clearbody b. generalize dependent (buf_mean p). clear - rb h1 hw. intros x _ rx.
    pose proof (ratio_sgn x b (proj1 rx) (proj1 rb)) as hr.
    cbn [lltb lsub NumL_Z]. cbn [lltb NumL_Z] in hr. rewrite hr.
    unfold checked_div in *. cbn [lltb ldiv lsub lzero NumL_mint NumL_Z ival] in *.
    rewrite (wid (b - x)) by lia.
    assert (hc : ival (if (b <? x)%Z then MInt x else MInt b : mint w) = (if (b <? x)%Z then x else b)) by (destruct (b <? x)%Z; reflexivity).
    rewrite hc. destruct (0 <? (if (b <? x)%Z then x else b))%Z.
    - rewrite hr, wid by (destruct (b =? 0)%Z, (x =? 0)%Z; cbn; lia). split; [reflexivity|].
      destruct (b =? 0)%Z, (x =? 0)%Z; cbn; lia.
    - rewrite <- hr. split; [reflexivity|]. lia.
  Qed.

  Lemma sil_value_mint assi ia : length assi <= n -> 1 <= n ->
    rr (fun s s' => s = mi s' /\ (Z.abs s' <= 1)%Z) (sil_value (Lt := mint w) M assi ia) (sil_value (Lt := Z) M assi ia).
  Proof.
    intros hl h1. unfold sil_value. eapply rr_bind; [apply sil_buf_mint; auto|]. intros b b' [-> hb].
    apply sil_of_buf_mint; [|lia]. intros p hp. destruct (hb p hp). split; [lia|nia].
  Qed.

  Lemma sum_mint (ss : list Z) x : (forall y, In y ss -> (Z.abs y <= 1)%Z) -> (Z.abs x + Z.of_nat (length ss) <= imax w)%Z ->
    fold_left ladd (map mi ss) (MInt x) = MInt (fold_left ladd ss x) /\
    (Z.abs (fold_left ladd ss x) <= Z.abs x + Z.of_nat (length ss))%Z.
  Proof.
    revert x. induction ss as [|y ss IH]; intros x h hb; cbn [fold_left map length] in *; [split; [reflexivity|lia]|].
    pose proof (h y (or_introl eq_refl)). cbn [ladd NumL_mint NumL_Z ival] in *. rewrite wid by lia.
    destruct (IH (x + y)%Z) as [q1 q2]; [intros; apply h; simpl; auto|lia|]. split; [exact q1|lia].
  Qed.

  Lemma sil_values_mint assi : length assi <= n -> 1 <= n ->
    rr (fun ss ss' => ss = map mi ss' /\ (forall y, In y ss' -> (Z.abs y <= 1)%Z) /\ length ss' = length assi)
      (mapM (sil_value (Lt := mint w) M assi) (enum assi)) (mapM (sil_value (Lt := Z) M assi) (enum assi)).
  Proof.
    intros hl h1. eapply rr_mono; [apply mapM_rr; intros a _; apply (sil_value_mint assi a hl h1)|].
    intros ss ss' [h hs]. cbv beta in h. rewrite length_enum in hs. pose proof (Forall2_len h) as he.
    assert (g : ss = map mi ss' /\ forall y, In y ss' -> (Z.abs y <= 1)%Z).
    { clear - h. induction h as [|s s' ss ss' [-> hs] _ [IH1 IH2]]; [split; [reflexivity|intros y []]|].
      subst ss. split; [reflexivity|]. intros y [<-|hy]; auto. }
    destruct g. split; [auto|]. split; [auto|]. congruence.
  Qed.

  Definition emb_sil (p : Z * list Z) : mint w * list (mint w) := (MInt (fst p), map mi (snd p)).

  Lemma silhouette_mint assi samples : 1 <= length assi <= n -> (N.of_nat n <= 4294967295)%N ->
    rr (fun p p' => p = emb_sil p' /\ (Z.abs (fst p') <= 1)%Z)
      (silhouette (Lt := mint w) M assi samples) (silhouette (Lt := Z) M assi samples).
  Proof.
    intros hl hu. destruct (Nat.eq_dec (width assi) 1) as [h1|h1].
    - assert (hb : forall (Lt : Type) (HL : NumL Lt) (HF : FromN Z Lt), exists buf, sil_buf (Lt := Lt) M assi 0 = Ok buf).
      { intros Lt HL HF. pose proof (sil_buf_oks (Lt := Lt) HM assi (i := 0) ltac:(lia) ltac:(lia)) as h.
        apply oks_inv in h as (b & -> & _). eauto. }
      rewrite !silhouette_one; auto; try apply HM. cbn [rr]. unfold emb_sil. cbn [fst snd]. split; [|cbn; lia].
      f_equal. generalize (if samples then length assi else 0). induction n0; cbn; [auto|]. f_equal. auto.
    - rewrite !silhouette_eq by auto. rewrite (proj1 (proj2 HM)). cbn [bind assertb].
      eapply rr_bind; [apply sil_values_mint; lia|]. intros ss ss' (-> & hs & hl'). cbn [rr].
      rewrite as_u32_small by lia. destruct (sum_mint ss' 0%Z hs ltac:(lia)) as [e r].
      change (@lzero (mint w) _) with (@MInt w 0). rewrite e. change (@lzero Z _) with 0%Z.
      set (x := fold_left ladd ss' 0%Z) in *. unfold emb_sil. cbn [fst snd ldiv lfrom_u32 NumL_mint NumL_Z ival].
      rewrite !nat_N_Z, (wid (Z.of_nat (length assi))) by lia.
      assert (hq : (Z.abs (Z.quot x (Z.of_nat (length assi))) <= 1)%Z).
      { rewrite <- Z.quot_abs by lia. rewrite (Z.abs_eq (Z.of_nat _)) by lia. rewrite Z.quot_div_nonneg by lia.
        apply Z.div_le_upper_bound; lia. }
      rewrite wid by lia. split; [|exact hq]. destruct samples; reflexivity.
  Qed.

  Lemma par_silhouette_mint assi : 1 <= length assi <= n -> (N.of_nat n <= 4294967295)%N ->
    rr (fun s s' => s = mi s') (par_silhouette (Lt := mint w) M assi) (par_silhouette (Lt := Z) M assi).
  Proof.
    intros hl hu. unfold par_silhouette. rewrite (proj1 (proj2 HM)). cbn [bind assertb].
    assert (hx : forall (Lt : Type) (HL : NumL Lt) (HF : FromN Z Lt),
      mapM (fun '(i, ai) => buf <- sil_buf (Lt := Lt) M assi i ;; sil_of_buf buf ai) (enum assi) = mapM (sil_value (Lt := Lt) M assi) (enum assi)).
    { intros. apply mapM_ext. intros [i a] _. reflexivity. }
    rewrite !hx. eapply rr_bind; [apply sil_values_mint; lia|]. intros ss ss' (-> & hs & hl'). cbn [rr].
    rewrite as_u32_small by lia. destruct (sum_mint ss' 0%Z hs ltac:(lia)) as [e r].
    change (@lzero (mint w) _) with (@MInt w 0). rewrite e. change (@lzero Z _) with 0%Z.
    set (x := fold_left ladd ss' 0%Z) in *. cbn [ldiv lfrom_u32 NumL_mint NumL_Z ival].
    rewrite !nat_N_Z, (wid (Z.of_nat (length assi))) by lia.
    assert (hq : (Z.abs (Z.quot x (Z.of_nat (length assi))) <= 1)%Z).
    { rewrite <- Z.quot_abs by lia. rewrite (Z.abs_eq (Z.of_nat _)) by lia. rewrite Z.quot_div_nonneg by lia.
      apply Z.div_le_upper_bound; lia. }
    rewrite wid by lia. reflexivity.
  Qed.

  (** ** pamsil *)
  Hypothesis h1n : 1 <= n.
  Hypothesis hu : (N.of_nat n <= 4294967295)%N.

  Lemma m_imax : (m <= imax w)%Z.
  Proof. nia. Qed.

  Let HR := Repr_mint hw.
  Let okz := okd (Lt := mint w) (Nt := Z) m int_rep.

  Lemma okd_in d : (0 <= d <= m)%Z -> okz d.
  Proof. intros h. split; [exact h|]. unfold int_rep. cbn. apply wid. pose proof m_imax. lia. Qed.

  Lemma okd_mget x y d : mget M x y = Ok d -> okz d.
  Proof. intros h. apply okd_in. eauto. Qed.

  Lemma okd_0 : okz nzero.
  Proof. apply okd_in. cbn. lia. Qed.

  Lemma HB' : (3 * Z.of_nat (mlen M) * m <= imax w)%Z.
  Proof. rewrite (proj1 HM). exact HB. Qed.

  Lemma bd_mi b (a : mint w) x : bd int_rep b a x -> a = MInt x.
  Proof. intros [h _]. unfold int_rep in h. destruct a. cbn in h. congruence. Qed.

  Lemma upd_obj_okd bj p d : okz (snd p) -> pamsil_upd_obj M bj p = Ok d -> okz d.
  Proof.
    destruct p as [j x]. cbn [snd]. intros hx. unfold pamsil_upd_obj. destruct (j =? bj).
    - intros h. injection h as <-. apply okd_0.
    - intros h. apply bind_ok in h as (y & e & h). injection h as <-. apply okd_mget in e. destruct (y <? x)%Z; auto.
  Qed.

  Definition pb_same (s s' : list nat * list Z) : Prop := s = s' /\ length (snd s) = mlen M /\ Forall okz (snd s).

  Lemma pb_step_mint k s s' t : pb_same s s' ->
    rr pb_same (pamsil_build_step (Lt := mint w) M k s t) (pamsil_build_step (Lt := Z) M k s' t).
  Proof.
    intros (<- & hl & ho). destruct s as [meds data]. cbn [snd] in *. unfold pamsil_build_step.
    eapply rr_bind; [eapply (build_next_rr (Lt := mint w) M HR okd_mget okd_0 HB'); eauto|].
    intros [x b] [x' b'] [e hx]. cbn [fst snd] in *. subst b'.
    assert (ea : lleb x lzero = lleb x' lzero).
    { apply bd_mi in hx. subst x. reflexivity. }
    rewrite ea. destruct (assertb (lleb x' lzero) P_assert) as [u|q]; cbn [bind rr]; [|auto].
    destruct (mapM (pamsil_upd_obj M b) (enum data)) as [d|q] eqn:em; cbn [bind rr]; [|auto].
    split; [reflexivity|]. cbn [snd].
    split; [pose proof (mapM_length _ _ em) as h; rewrite length_enum in h; congruence|].
    assert (g : forall l d, (forall p, In p l -> okz (snd p)) -> mapM (pamsil_upd_obj M b) l = Ok d -> Forall okz d).
    { induction l as [|p l IH]; intros dd hp e; cbn [mapM] in e; [injection e as <-; auto|].
      apply bind_ok in e as (y & e1 & e). apply bind_ok in e as (ys & e2 & e). injection e as <-.
      constructor; [eapply upd_obj_okd; [|exact e1]; apply hp; simpl; auto|apply IH; auto; intros; apply hp; simpl; auto]. }
    apply (g (enum data)); auto. intros [j y] hp. cbn [snd]. rewrite Forall_forall in ho. apply ho.
    apply In_enum in hp. eapply nth_error_In; eauto.
  Qed.

  Lemma pb_init_mint k : pamsil_build_initialize (Lt := mint w) M k = pamsil_build_initialize (Lt := Z) M k.
  Proof.
    assert (h : rr eq (pamsil_build_initialize (Lt := mint w) M k) (pamsil_build_initialize (Lt := Z) M k)).
    { unfold pamsil_build_initialize.
      eapply rr_bind; [eapply (build_first_rr (Lt := mint w) M HR okd_mget okd_0 HB')|].
      intros [x b] [x' b'] [e _]. cbn [fst snd] in *. subst b'.
      destruct (mapM (fun j => mget M j b) (seq 0 (mlen M))) as [d|q] eqn:em; cbn [bind rr]; [|auto].
      eapply rr_bind.
      - apply rr_foldM with (I := fun _ => pb_same); [intros t a s s' _; apply pb_step_mint|].
        split; [reflexivity|]. cbn [snd]. split; [pose proof (mapM_length _ _ em) as h; rewrite seq_length in h; congruence|].
        assert (g : forall l d, mapM (fun j => mget M j b) l = Ok d -> Forall okz d).
        { induction l as [|p l IH]; intros dd e; cbn [mapM] in e; [injection e as <-; auto|].
          apply bind_ok in e as (y & e1 & e). apply bind_ok in e as (ys & e2 & e). injection e as <-.
          constructor; [eapply okd_mget; eauto|auto]. }
        eapply g; eauto.
      - intros [a b1] [a' b1'] (e & _). injection e as <- <-. reflexivity. }
    destruct (pamsil_build_initialize (Lt := mint w) M k), (pamsil_build_initialize (Lt := Z) M k); cbn in h; congruence || tauto.
  Qed.

  Definition ps_same (s : psst (mint w)) (s' : psst Z) : Prop :=
    ps_med s = ps_med s' /\ ps_assi s = ps_assi s' /\ fst (ps_best s) = MInt (fst (ps_best s')) /\
    snd (ps_best s) = snd (ps_best s').

  Lemma an_mint med : rr (fun p p' => snd p = snd p' /\ length (snd p) = n)
    (assign_nearest (Lt := mint w) M med) (assign_nearest (Lt := Z) M med).
  Proof.
    eapply rr_mono; [eapply (assign_nearest_rr (Lt := mint w) M HR okd_mget okd_0 HB')|].
    intros p p' (h1 & h2 & _). rewrite (proj1 HM) in h2. auto.
  Qed.

  Lemma cand_mint q mq s s' j : ps_same s s' -> rr ps_same (pamsil_cand M q mq s j) (pamsil_cand M q mq s' j).
  Proof.
    intros (e1 & e2 & e3 & e4). unfold pamsil_cand. destruct (j =? mq); cbn [rr]; [repeat split; auto|].
    rewrite e1, e2. destruct (idx (ps_assi s') j) as [aj|p]; cbn [bind rr]; [|auto].
    destruct (idx (ps_med s') aj) as [mj|p]; cbn [bind rr]; [|auto].
    destruct (j =? mj); cbn [rr]; [repeat split; auto|].
    destruct (upd (ps_med s') q j) as [med|p]; cbn [bind rr]; [|auto].
    eapply rr_bind; [apply an_mint|]. intros [l a] [l' a'] [ea hl]. cbn [snd] in *. subst a'.
    eapply rr_bind; [apply silhouette_mint; auto; lia|]. intros [x v] [x' v'] [ex hx].
    unfold emb_sil in ex. injection ex as -> _. cbn [fst snd] in *.
    assert (el : lleb (MInt x' : mint w) (fst (ps_best s)) = lleb x' (fst (ps_best s'))) by (rewrite e3; reflexivity).
    rewrite el. destruct (lleb x' (fst (ps_best s'))); cbn [rr]; repeat split; auto.
  Qed.

  Lemma pos_mint s s' q : ps_same s s' -> rr ps_same (pamsil_pos M s q) (pamsil_pos M s' q).
  Proof.
    intros h. unfold pamsil_pos. pose proof h as (e1 & e2 & e3 & e4). rewrite e1.
    destruct (idx (ps_med s') q) as [mq|p]; cbn [bind rr]; [|auto].
    eapply rr_bind.
    - apply rr_foldM with (I := fun _ => ps_same); [intros t j a a' _; apply cand_mint|exact h].
    - intros a a' (f1 & f2 & f3 & f4). rewrite f1. destruct (upd (ps_med a') q mq); cbn [bind rr]; [|auto].
      repeat split; auto.
  Qed.

  Definition pl_same (s : pslst (mint w)) (s' : pslst Z) : Prop :=
    pl_med s = pl_med s' /\ pl_assi s = pl_assi s' /\ pl_sil s = MInt (pl_sil s') /\ pl_swaps s = pl_swaps s' /\
    pl_iter s = pl_iter s'.

  Lemma iteration_mint s s' : pl_same s s' -> rr (rc pl_same) (pamsil_iteration M s) (pamsil_iteration M s').
  Proof.
    intros (e1 & e2 & e3 & e4 & e5). unfold pamsil_iteration. rewrite e1, e2, e4, e5.
    eapply rr_bind.
    - apply rr_foldM with (I := fun _ => ps_same); [intros t j a a' _; apply pos_mint|]. repeat split.
    - intros a a' (f1 & f2 & f3 & f4).
      assert (el : lleb (fst (ps_best a)) (pl_sil s) = lleb (fst (ps_best a')) (pl_sil s')) by (rewrite f3, e3; reflexivity).
      rewrite el, f1, f2, f4. destruct (lleb (fst (ps_best a')) (pl_sil s')); cbn [rr rc]; [repeat split; auto|].
      destruct (snd (ps_best a')) as [[b j]|]; cbn [rr]; [|auto].
      destruct (upd (ps_med a') b j); cbn [bind rr rc]; [|auto]. repeat split; auto.
  Qed.

  Definition emb_res (r : pam_result Z) : pam_result (mint w) := mkPR (MInt (r_loss r)) (r_assi r) (r_iter r) (r_swaps r) (r_med r).

  Lemma pamsil_mint k maxiter : via emb_res (pamsil (Lt := mint w) M k maxiter) (pamsil (Lt := Z) M k maxiter).
  Proof.
    apply rr_via. unfold pamsil. destruct (check_input M k) as [u|p]; cbn [bind rr]; [|auto].
    rewrite pb_init_mint. destruct (pamsil_build_initialize (Lt := Z) M k) as [meds|p]; cbn [bind rr]; [|auto].
    unfold pamsil_optimize. rewrite (proj1 HM). destruct (length meds =? 1).
    - eapply rr_bind; [eapply (choose_rr (Lt := mint w) M HR okd_mget okd_0 HB'); rewrite repeat_length, (proj1 HM); lia|].
      intros [[md c] x] [[md' c'] x'] [e hx]. cbn [fst snd] in *. injection e as -> ->. apply bd_mi in hx. subst x. cbn [rr]. reflexivity.
    - eapply rr_bind; [apply silhouette_mint; auto; rewrite repeat_length; lia|]. intros [x v] [x' v'] [ex hx].
      unfold emb_sil in ex. injection ex as -> _.
      eapply rr_bind; [apply rr_whileM with (R := pl_same); [apply iteration_mint|repeat split]|].
      intros s s' (e1 & e2 & e3 & e4 & e5). rewrite e1, e3, e4, e5. eapply rr_bind; [apply an_mint|].
      intros [l a] [l' a'] [ea _]. cbn [snd] in ea. subst a'. cbn [rr]. reflexivity.
  Qed.

  (** ** medoid_silhouette *)
  Lemma medoid_silhouette_mint med samples : nonneg_matrix M n D -> 2 <= length med -> (forall x, In x med -> x < n) ->
    rr (fun p p' => p = emb_sil p') (medoid_silhouette (Lt := mint w) M med samples) (medoid_silhouette (Lt := Z) M med samples).
  Proof.
    intros hnn hk hin. unfold medoid_silhouette. rewrite (proj1 (proj2 HM)), (proj1 HM). cbn [bind assertb].
    destruct (assertb (N.of_nat n <=? u32_max)%N P_n_too_large) as [u|p]; cbn [bind rr]; [|auto].
    replace (length med =? 1) with false by (symmetry; apply Nat.eqb_neq; lia).
    destruct (assertb (length med <=? n) P_k_gt_n) as [u'|p]; cbn [bind rr]; [|auto].
    eapply rr_bind.
    - apply rr_foldM with (I := fun t (p : mint w * list (mint w)) (p' : Z * list Z) =>
        p = emb_sil p' /\ (0 <= fst p' <= Z.of_nat t)%Z).
      + intros t i p [l' v'] ht [-> hl]. unfold emb_sil, ms_step. cbn [fst snd] in *.
        assert (hi : t < n /\ i < n).
        { assert (hlt : t < length (seq 0 n)) by (apply nth_error_Some; congruence). rewrite seq_length in hlt.
          split; [auto|]. apply nth_error_In, in_seq in ht. lia. }
        destruct hi as [htn hi].
        pose proof (ms_best_ok hnn med hk hin hi) as h. apply oks_inv in h as ([x y] & -> & hb). cbn [bind fst snd].
        pose proof (best_two_pos hnn hin hi hb) as hp. cbn [fst snd vN OrdLaws_Z] in hp.
        change 0%Q with (inject_Z 0) in hp. rewrite <- !Zle_Qle in hp.
        assert (hxy : (y <= m)%Z).
        { destruct hb as (_ & _ & rest & hpm & _). cbn [fst snd vN OrdLaws_Z] in hpm. rewrite firstn_all in hpm.
          assert (h : In (inject_Z y) (map (vals D i) med)) by (apply (Permutation_in _ (Permutation_sym hpm)); simpl; auto).
          apply in_map_iff in h as (z & ez & hz). unfold vals in ez. cbn in ez. unfold inject_Z in ez. injection ez as <-. apply hin in hz.
          pose proof (Hget i z (D i z) (proj2 (proj2 HM) i z hi hz)). lia. }
        cbn [nis_zero NumN_Z]. destruct (Z.eqb_spec 0 x) as [ex|ex]; cbn [negb rr]; [split; [reflexivity|cbn; lia]|].
        cbn [lfrom FromN_Z_Z FromN_Z_mint ldiv lsub ladd lone NumL_Z NumL_mint ival]. pose proof m_imax.
        rewrite (wid x), (wid y) by lia.
        assert (hq : (0 <= Z.quot x y <= 1)%Z).
        { rewrite Z.quot_div_nonneg by lia. split; [apply Z.div_pos; lia|apply Z.div_le_upper_bound; lia]. }
        rewrite (wid (Z.quot x y)) by lia. rewrite (wid (1 - Z.quot x y)), (wid (l' + Z.quot x y)) by lia.
        destruct samples; [|cbn [bind rr fst snd]; split; [reflexivity|lia]].
        unfold upd. rewrite map_length. destruct (i <? length v'); cbn [bind rr fst snd]; [|auto].
        split; [rewrite map_set_nth; reflexivity|lia].
      + split; [|cbn; lia]. unfold emb_sil. cbn [fst snd]. f_equal. generalize (if samples then n else 0).
        induction n0; cbn; [auto|]. f_equal. auto.
    - cbv beta. rewrite seq_length. intros p [l' v'] [-> hl]. unfold emb_sil. cbn [fst snd rr] in *.
      rewrite as_u32_small by lia. cbn [lsub ldiv lfrom_u32 lone NumL_Z NumL_mint ival]. rewrite nat_N_Z, (wid (Z.of_nat n)) by lia.
      assert (hq : (0 <= Z.quot l' (Z.of_nat n) <= 1)%Z).
      { rewrite Z.quot_div_nonneg by lia. split; [apply Z.div_pos; lia|apply Z.div_le_upper_bound; lia]. }
      rewrite (wid (Z.quot _ _)), wid by lia. reflexivity.
  Qed.
End Machine.

(** C84 for [w]-bit losses: the results are those with unbounded integers.  ([n] is in range for every
    type with [From<u32>].) *)
Theorem C84_machine_integers (w m : Z) (M : Mat Z) n D :
  (1 <= w)%Z -> nonneg_matrix M n D -> 1 <= n -> (N.of_nat n <= 4294967295)%N ->
  (forall x y d, mget M x y = Ok d -> (0 <= d <= m)%Z) ->
  (3 * Z.of_nat n * m <= 2 ^ (w - 1) - 1)%Z -> (Z.of_nat n <= 2 ^ (w - 1) - 1)%Z ->
  (forall assi samples, length assi = n -> exists value vec,
     silhouette (Lt := Z) M assi samples = Ok (value, vec) /\
     silhouette (Lt := mint w) M assi samples = Ok (MInt value, map MInt vec)) /\
  (forall assi, length assi = n -> exists value,
     par_silhouette (Lt := Z) M assi = Ok value /\ par_silhouette (Lt := mint w) M assi = Ok (MInt value)) /\
  (forall med samples, 2 <= length med <= n -> (forall x, In x med -> x < n) -> exists value vec,
     medoid_silhouette (Lt := Z) M med samples = Ok (value, vec) /\
     medoid_silhouette (Lt := mint w) M med samples = Ok (MInt value, map MInt vec)) /\
  (forall k maxiter, match pamsil (Lt := Z) M k maxiter with
     | Ok r => exists r' : pam_result (mint w), pamsil M k maxiter = Ok r' /\ ival (r_loss r') = r_loss r /\
                 r_assi r' = r_assi r /\ r_med r' = r_med r /\ r_iter r' = r_iter r /\ r_swaps r' = r_swaps r
     | Panic p => pamsil (Lt := mint w) M k maxiter = Panic p
     end).
Proof.
  intros hw hd hn hu hg hb hnb. pose proof (proj1 hd) as hM.
  assert (hm : (0 <= m)%Z) by (pose proof (hg 0 0 _ (proj2 (proj2 hM) 0 0 ltac:(lia) ltac:(lia))); lia).
  split; [|split; [|split]].
  - intros assi samples hl. pose proof (silhouette_mint w M n D m hw hM hg hm hb hnb assi samples ltac:(lia) hu) as h.
    pose proof (silhouette_oks (Lt := Z) hM assi samples ltac:(lia)) as h2. apply oks_inv in h2 as ([value vec] & e & _).
    rewrite e in h. destruct (silhouette (Lt := mint w) M assi samples) as [q|q]; [|destruct h]. destruct h as [-> _].
    exists value, vec. auto.
  - intros assi hl. pose proof (par_silhouette_mint w M n D m hw hM hg hm hb hnb assi ltac:(lia) hu) as h.
    assert (hp : oks (par_silhouette (Lt := Z) M assi) (fun _ => True)).
    { unfold par_silhouette. rewrite (proj1 (proj2 hM)). cbn [bind assertb]. eapply oks_bind; [|intros; exact I].
      apply (@mapM_enum _ _ _ assi (fun _ _ _ => True)). intros i a e. apply (sil_value_oks (Lt := Z) hM assi i); auto. lia. }
    apply oks_inv in hp as (value & e & _). rewrite e in h. destruct (par_silhouette (Lt := mint w) M assi); [|destruct h].
    cbn in h. subst. exists value. auto.
  - intros med samples hk hin.
    pose proof (medoid_silhouette_mint w M n D m hw hM hg hm hb hnb hn hu med samples hd ltac:(lia) hin) as h.
    assert (hp : oks (medoid_silhouette (Lt := Z) M med samples) (fun _ => True)).
    { unfold medoid_silhouette. rewrite (proj1 (proj2 hM)), (proj1 hM). cbn [bind assertb].
      replace (N.of_nat n <=? u32_max)%N with true by (symmetry; apply N.leb_le; unfold u32_max; lia). cbn [bind assertb].
      replace (length med =? 1) with false by (symmetry; apply Nat.eqb_neq; lia).
      replace (length med <=? n) with true by (symmetry; apply Nat.leb_le; lia). cbn [bind assertb].
      eapply oks_bind; [|intros [? ?] _; exact I].
      apply foldM_seq with (I := fun _ (p : Z * list Z) => samples = true -> length (snd p) = n).
      - intros ->. apply repeat_length.
      - intros i [l v] hi hlv. cbn [snd] in *. unfold ms_step.
        pose proof (ms_best_ok hd med ltac:(lia) hin hi) as h2. apply oks_inv in h2 as (b & -> & _). cbn [bind].
        destruct (negb _); [|exact hlv]. destruct samples; [|cbn; auto]. rewrite upd_ok by (rewrite hlv; auto). cbn.
        intros _. rewrite length_set_nth. auto. }
    apply oks_inv in hp as ([value vec] & e & _). rewrite e in h.
    destruct (medoid_silhouette (Lt := mint w) M med samples); [|destruct h]. cbn in h. subst. exists value, vec. auto.
  - intros k maxiter. pose proof (pamsil_mint w M n D m hw hM hg hm hb hnb hn hu k maxiter) as h. unfold via in h.
    destruct (pamsil (Lt := Z) M k maxiter) as [r|p]; [|exact h]. exists (emb_res w r). repeat split; auto.
Qed.
Print Assumptions C84_machine_integers.
Definition C84_machine_case := C84_machine_integers 64 7 m6 6 d6 ltac:(lia) (diss_nonneg _ _ _ m6_diss) ltac:(lia)
  ltac:(vm_compute; discriminate) m6_get ltac:(vm_compute; discriminate) ltac:(vm_compute; discriminate).
Example C84_machine_value : pamsil (Lt := mint 64) m5 2 10 = Ok (mkPR (MInt 0) [0; 0; 0; 1; 1] 1 0 [0; 3]) /\
  medoid_silhouette (Lt := mint 64) m6 [0; 1; 3] false = Ok (MInt 1, []).
Proof. split; vm_compute; reflexivity. Qed.

(** Without the bound the sums wrap around: in a bad clustering (silhouette -27/40) the average distance
    within the large cluster becomes negative, and the silhouette 2, which no clustering can have. *)
Definition big : Z := (2 ^ 56)%Z.
Definition rows_big : list (list Z) :=
  [[0; 100 * big; 100 * big; 10 * big]; [100 * big; 0; 100 * big; 10 * big];
   [100 * big; 100 * big; 0; 10 * big]; [10 * big; 10 * big; 10 * big; 0]]%Z.
Theorem C84_overflow_refuted : exists (M : Mat Z) D vec, diss_matrix M 4 D /\ symmetric 4 (vals D) /\
  (forall x y, x < 4 -> y < 4 -> (D x y <= 2 ^ 63 - 1)%Z) /\
  silhouette (Lt := Z) M [0; 0; 0; 1] false = Ok (0%Z, []) /\
  (sil_mean (vals D) [0; 0; 0; 1]%nat == -27 # 40)%Q /\
  silhouette (Lt := mint 64) M [0; 0; 0; 1] true = Ok (MInt 2, map MInt vec) /\ vec = [3; 3; 3; 0]%Z.
Proof.
  exists (mat_of_rows rows_big), (entries rows_big), [3; 3; 3; 0]%Z.
  split; [apply rows_diss; [lia|vm_compute; reflexivity]|]. split; [apply rows_sym; vm_compute; reflexivity|].
  split.
  { assert (h : forallb (fun x => forallb (fun y => (entries rows_big x y <=? 2 ^ 63 - 1)%Z) (seq 0 4)) (seq 0 4) = true) by (vm_compute; reflexivity).
    intros x y hx hy. rewrite forallb_forall in h. specialize (h x ltac:(apply in_seq; lia)).
    rewrite forallb_forall in h. specialize (h y ltac:(apply in_seq; lia)). apply Z.leb_le. exact h. }
  split; [vm_compute; reflexivity|]. split; [vm_compute; reflexivity|]. split; vm_compute; reflexivity.
Qed.
Print Assumptions C84_overflow_refuted.
