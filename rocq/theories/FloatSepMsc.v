(** FloatSepMsc.v -- binary64: when no two sets of medoids have nearly the same average medoid silhouette, the algorithms
    for the medoid silhouette make exactly the choices of exact arithmetic *)
From Coq Require Import ZArith QArith Qabs Qpower Lqa Lia Permutation.
From Coq.Floats Require Import SpecFloat.
From Verif Require Import Base Num M_Mat M_Util M_Fasterpam M_Silhouette M_Msc M_Pammedsil Inst Hoare Spec SpecFacts Laws
  FloatFacts FloatExact FloatRound PamShape PamExact PamFacts MscShape MscExact MscFacts MscK2 BuildFacts DynExact TermMsc TermFloat FloatSil FloatLoss FloatMain
  FloatFmt FloatSwap FloatMsc FloatPass FloatMsc2 FloatBuild FloatBuildMsc Reference LocalSearch FloatSep.
Set Implicit Arguments.
Open Scope nat_scope.

(** ** one swap out of several, evaluated up to an error of [E] *)
Section Choice.
  Variables (n k : nat) (f : list nat -> Q) (better : list nat -> list nat -> bool) (E e : Q).
  Hypothesis better_spec : forall a b, better a b = Qlt_bool (f a) (f b).
  Hypothesis f_set : forall a b, medoids n k a -> medoids n k b -> same_set a b -> (f a == f b)%Q.
  Hypothesis HE : (0 <= E)%Q.
  Hypothesis He : (2 * E <= e)%Q.

  Lemma sep_stay med b j : swaps_apart f n k e -> medoids n k med -> b < k -> j < n -> ~ In j med ->
    (f med <= f (swap med b j) + E)%Q -> (f med + e < f (swap med b j))%Q.
  Proof. intros hsep hm hb hj hjm h. pose proof (hsep _ b j hm hb hj hjm) as ha. apply apart_ge in ha; lra. Qed.

  Lemma sep_go med b j : swaps_apart f n k e -> medoids n k med -> b < k -> j < n -> ~ In j med ->
    (f (swap med b j) <= f med + E)%Q -> (f (swap med b j) + e < f med)%Q.
  Proof. intros hsep hm hb hj hjm h. pose proof (hsep _ b j hm hb hj hjm) as ha. apply apart_le in ha; lra. Qed.

  Lemma sep_eager med b j : swaps_apart f n k e -> medoids n k med -> b < k -> j < n -> ~ In j med ->
    (f (swap med b j) <= f med + E)%Q -> (forall c, c < k -> (f (swap med b j) <= f (swap med c j) + 2 * E)%Q) ->
    improve better (swaps_for med j) med = Some (swap med b j).
  Proof.
    intros hsep hm hb hj hjm hlt hle. pose proof hm as (m1 & m2 & m3).
    pose proof (sep_go hsep hm hb hj hjm hlt) as hgain.
    assert (hbest : forall c, c < k -> c <> b -> (f (swap med b j) < f (swap med c j))%Q).
    { intros c hc hne. specialize (hle c hc). assert (hbc : b <> c) by congruence.
      pose proof (swaps_apart_two f_set hsep hm hb hc hj hjm hbc) as ha. apply apart_ge in ha; lra. }
    apply eager_some with (f := f); auto; [lia|lra| |].
    - intros c hc. destruct (Nat.eq_dec c b) as [->|hne]; [lra|]. apply Qlt_le_weak, hbest; lia.
    - intros c hc. apply hbest; lia.
  Qed.

  Lemma sep_steep med b j : sets_apart f n k e -> medoids n k med -> b < k -> j < n -> ~ In j med ->
    (f (swap med b j) <= f med + E)%Q ->
    (forall c j', c < k -> j' < n -> ~ In j' med -> (f (swap med b j) <= f (swap med c j') + 2 * E)%Q) ->
    improve better (all_swaps n med) med = Some (swap med b j).
  Proof.
    intros hsep hm hb hj hjm hlt hle. pose proof hm as (m1 & m2 & m3).
    pose proof (sep_go (sets_swaps hsep) hm hb hj hjm hlt) as hgain.
    assert (hbest : forall j' c, j' < n -> c < k -> ~ In j' med -> (c, j') <> (b, j) -> (f (swap med b j) < f (swap med c j'))%Q).
    { intros j' c hj' hc hjm' hne. specialize (hle c j' hc hj' hjm').
      assert (ha : (e < Qabs (f (swap med c j') - f (swap med b j)))%Q).
      { apply hsep; auto using medoids_swap. eapply swaps_differ; eauto. }
      apply apart_ge in ha; lra. }
    apply steep_some with (f := f); auto; [lia|lra| | |].
    - intros j' c hj' hjm' hc. destruct (Nat.eq_dec j' j) as [->|hne]; [destruct (Nat.eq_dec c b) as [->|hne]; [lra|]|];
        apply Qlt_le_weak, hbest; auto; try lia; congruence.
    - intros j' c hj' hjm' hc. apply hbest; auto; try lia. intros h. injection h. lia.
    - intros c hc. apply hbest; auto; try lia. intros h. injection h. lia.
  Qed.

  (** ** first improvement *)
  Section Eager.
    Variable S : Type.
    Variable md : S -> list nat.
    Variables last swaps iter : S -> nat.
    Variable loss : S -> f64.
    Variable inc : S -> S.
    Variable el : Q.
    Hypothesis Hel : (2 * el <= e)%Q.
    Hypothesis inc_md : forall s, md (inc s) = md s.
    Hypothesis inc_last : forall s, last (inc s) = last s.
    Hypothesis inc_swaps : forall s, swaps (inc s) = swaps s.
    Hypothesis inc_iter : forall s, iter (inc s) = Datatypes.S (iter s).
    Hypothesis inc_loss : forall s, loss (inc s) = loss s.
    Variable good : S -> Prop.
    Hypothesis good_inc : forall s, good s -> good (inc s).
    Hypothesis good_med : forall s, good s -> medoids n k (md s).
    Hypothesis good_loss : forall s, good s -> f64_finite (loss s) /\ FloatSil.close el (f (md s)) (loss s).
    Variable cand : S -> nat -> res (ctl S).
    Hypothesis Hsep : swaps_apart f n k e.

    Definition eager_step (s : S) (j : nat) (c : ctl S) : Prop :=
      match c with
      | Break s' => s' = s /\ j = last s
      | Next s' => good s' /\ iter s' = iter s /\ j <> last s /\
          ((s' = s /\ (~ In j (md s) -> forall b, b < k -> (f (md s) <= f (swap (md s) b j) + E)%Q)) \/
           (last s' = j /\ swaps s' = Datatypes.S (swaps s) /\ ~ In j (md s) /\
            exists b, b < k /\ md s' = swap (md s) b j /\ (f (swap (md s) b j) <= f (md s) + E)%Q /\
              forall c, c < k -> (f (swap (md s) b j) <= f (swap (md s) c j) + 2 * E)%Q))
      end.
    Hypothesis Hcand : forall s j, j < n -> good s -> oks (cand s j) (eager_step s j).

    Lemma eager_apart maxiter st0 : good st0 -> swaps st0 = 0 -> iter st0 = 0 -> last st0 = n ->
      oks (whileM maxiter (iteration cand (seq 0 n) swaps inc (fun a b => lleb (loss a) (loss b))) st0) (fun st =>
        good st /\ (md st, swaps st, iter st) = eager_swaps better (seq 0 n) (md st0) maxiter /\
        (iter st < maxiter -> forall b j, b < k -> j < n -> ~ In j (md st) -> (f (md st) <= f (swap (md st) b j))%Q)).
    Proof.
      intros hg0 hs0 hi0 hl0.
      assert (h : oks (whileM maxiter (iteration cand (seq 0 n) swaps inc (fun a b => lleb (loss a) (loss b))) st0)
        (first_result (seq 0 n) swaps iter (fun s => f64_val (loss s)) good
          (fun s j => ~ In j (md s) -> forall b, b < k -> (f (md s) <= f (swap (md s) b j))%Q)
          (fun s => LocalSearch.better f n k (md s)) md
          (fun m j => improve better (swaps_for m j) m) inc maxiter st0)).
      { apply first_improvement with (last := last); auto.
        - apply seq_NoDup.
        - intros st hg. rewrite inc_md, inc_last, inc_swaps, inc_iter, inc_loss. auto 10.
        - intros st st' hg hg' hlt. destruct (lleb (loss st) (loss st')) eqn:el'; auto.
          apply f64_lleb in el'; [lra|apply (good_loss hg)|apply (good_loss hg')].
        - intros st j hg hj hni. apply eager_none with (f := f); [auto|]. rewrite (proj1 (good_med hg)). exact hni.
        - intros st j hg hj. apply in_seq in hj. assert (hj' : j < n) by lia. pose proof (good_med hg) as hm. pose proof hm as (m1 & m2 & m3).
          eapply oks_mono; [apply (Hcand hj' hg)|]. intros [s|s]; [|auto].
          intros (q1 & q2 & q3 & q4). split; [auto|]. split; [auto|]. split; [auto|].
          destruct q4 as [[-> q4]|(q4 & q5 & hjm & b & hb & em & hlt & hle)].
          + left. split; [auto|]. intros hjm b hb. specialize (q4 hjm b hb).
            pose proof (sep_stay Hsep hm hb hj' hjm q4). lra.
          + right. pose proof (sep_go Hsep hm hb hj' hjm hlt) as hgain.
            destruct (good_loss hg) as [_ [l1 l2]]. destruct (good_loss q1) as [_ [l3 l4]]. rewrite em in l3, l4.
            split; [lra|]. split.
            { rewrite em. apply better_lt; [rewrite length_swap; lia| |lra].
              destruct (medoids_swap hm hb hj' hjm) as (_ & _ & h). exact h. }
            split; [auto|]. split; [auto|]. split.
            { intros hni. exfalso. apply hni. rewrite em. apply in_swap; auto. lia. }
            split; [intros hni; specialize (hni hjm b hb); lra|].
            rewrite em. apply sep_eager; auto.
        - intros hin. apply in_seq in hin. lia. }
      eapply oks_mono; [exact h|]. intros st [h1 h2 h3 h4 h5 h6 h7 h8 h9 h10 h11].
      split; [auto|]. split; [exact h11|]. intros hlt b j hb hj hjm. apply h8; auto. apply in_seq. lia.
    Qed.
  End Eager.

  (** ** best improvement *)
  Section Steep.
    Variable S : Type.
    Variable md : S -> list nat.
    Variables swaps iter : S -> nat.
    Variable loss : S -> f64.
    Variable el : Q.
    Hypothesis Hel : (2 * el <= e)%Q.
    Variable good : S -> Prop.
    Hypothesis good_med : forall s, good s -> medoids n k (md s).
    Hypothesis good_loss : forall s, good s -> f64_finite (loss s) /\ FloatSil.close el (f (md s)) (loss s).
    Variable body : S -> res (ctl S).
    Hypothesis Hsep : sets_apart f n k e.

    Definition steep_step (s : S) (c : ctl S) : Prop :=
      match c with
      | Break s' => good s' /\ md s' = md s /\ loss s' = loss s /\ swaps s' = swaps s /\ iter s' = Datatypes.S (iter s) /\
          (forall b j, b < k -> j < n -> ~ In j (md s) -> (f (md s) <= f (swap (md s) b j) + E)%Q)
      | Next s' => good s' /\ swaps s' = Datatypes.S (swaps s) /\ iter s' = Datatypes.S (iter s) /\
          exists b j, b < k /\ j < n /\ ~ In j (md s) /\ md s' = swap (md s) b j /\ (f (swap (md s) b j) <= f (md s) + E)%Q /\
            forall c j', c < k -> j' < n -> ~ In j' (md s) -> (f (swap (md s) b j) <= f (swap (md s) c j') + 2 * E)%Q
      end.
    Hypothesis Hbody : forall s, good s -> oks (body s) (steep_step s).

    Lemma steep_apart maxiter st0 : good st0 -> swaps st0 = 0 -> iter st0 = 0 ->
      oks (whileM maxiter body st0) (fun st =>
        good st /\ (md st, swaps st, iter st) = best_swaps better n (md st0) maxiter /\
        (iter st < maxiter -> forall b j, b < k -> j < n -> ~ In j (md st) -> (f (md st) <= f (swap (md st) b j))%Q)).
    Proof.
      intros hg0 hs0 hi0.
      assert (h : oks (whileM maxiter body st0) (steep_result swaps iter (fun s => f64_val (loss s)) good
        (fun s => forall b j, b < k -> j < n -> ~ In j (md s) -> (f (md s) <= f (swap (md s) b j))%Q)
        (fun s => LocalSearch.better f n k (md s)) md (fun m => improve better (all_swaps n m) m) maxiter st0)).
      { apply steepest; auto. intros s hg. pose proof (good_med hg) as hm. pose proof hm as (m1 & m2 & m3).
        eapply oks_mono; [apply (Hbody hg)|]. intros [s'|s'].
        - intros (q1 & q2 & q3 & b & j & hb & hj & hjm & em & hlt & hle).
          pose proof (sep_go (sets_swaps Hsep) hm hb hj hjm hlt) as hgain.
          destruct (good_loss hg) as [_ [l1 l2]]. destruct (good_loss q1) as [_ [l3 l4]]. rewrite em in l3, l4.
          split; [auto|]. split; [lra|]. split.
          { rewrite em. apply better_lt; [rewrite length_swap; lia| |lra].
            destruct (medoids_swap hm hb hj hjm) as (_ & _ & h). exact h. }
          split; [auto|]. split; [auto|]. rewrite em. apply sep_steep; auto.
        - intros (q1 & q2 & q3 & q4 & q5 & q6). rewrite q2, q3.
          assert (hno : forall b j, b < k -> j < n -> ~ In j (md s) -> (f (md s) <= f (swap (md s) b j))%Q).
          { intros b j hb hj hjm. pose proof (sep_stay (sets_swaps Hsep) hm hb hj hjm (q6 b j hb hj hjm)). lra. }
          split; [auto|]. split; [auto|]. do 5 (split; [auto|]).
          apply steep_none with (f := f); [auto|]. rewrite m1. exact hno. }
      eapply oks_mono; [exact h|]. intros st [h1 h2 h3 h4 h5 h6 h7 h8].
      split; [auto|]. split; [exact h8|]. intros hlt. destruct h7 as [[_ h7]|[_ h7]]; [exact h7|lia].
    Qed.
  End Steep.
End Choice.

Lemma rtot_same_set v n k a b : 2 <= k -> medoids n k a -> medoids n k b -> same_set a b -> (rtot v n a == rtot v n b)%Q.
Proof.
  intros hk (a1 & a2 & a3) (b1 & b2 & b3) h. apply rtot_perm; [lia|]. apply NoDup_Permutation; auto.
Qed.

(** sums of numbers with the same values *)
Lemma add_same_val (a b a' b' : f64) B : f64_finite a -> f64_finite b -> f64_finite a' -> f64_finite b' ->
  (f64_val a == f64_val a')%Q -> (f64_val b == f64_val b')%Q ->
  (- B <= f64_val a + f64_val b)%Q -> (f64_val a + f64_val b <= B)%Q -> (B <= 2 ^ 1023)%Q ->
  (f64_val (ladd a b) == f64_val (ladd a' b'))%Q.
Proof.
  intros ha hb ha' hb' ea eb h1 h2 h3.
  assert (r1 : rounds (f64_val a + f64_val b) (ladd a b)) by (apply add_rounds; auto; lra).
  assert (r2 : rounds (f64_val a' + f64_val b') (ladd a' b')) by (apply add_rounds; auto; lra).
  assert (hz : forall x y z, rounds x y -> f64_finite z -> (f64_val z == x)%Q -> (f64_val y == x)%Q).
  { intros x y z hr hz e. pose proof (FloatRound.rounds_le z hr hz ltac:(lra)). pose proof (FloatRound.rounds_ge z hr hz ltac:(lra)). lra. }
  destruct (Qeq_dec (f64_val a) 0) as [za|na].
  { rewrite (hz _ _ b r1 hb) by lra. rewrite (hz _ _ b' r2 hb') by lra. lra. }
  destruct (Qeq_dec (f64_val b) 0) as [zb|nb].
  { rewrite (hz _ _ a r1 ha) by lra. rewrite (hz _ _ a' r2 ha') by lra. lra. }
  assert (hne : forall x y : f64, f64_finite x -> f64_finite y -> ~ (f64_val x == 0)%Q -> (f64_val x == f64_val y)%Q -> x = y).
  { intros x y hx hy nx exy. apply f64_val_inj; auto.
    - intros ->. apply nx. reflexivity.
    - intros ->. apply nx. rewrite exy. reflexivity. }
  rewrite (hne a a' ha ha' na ea), (hne b b' hb hb' nb eb). reflexivity.
Qed.

Section Msc.
  Context {U : SumErr} {Nt : Type} `{HO : OrdLaws Nt} `{HFN : FromN Nt f64}.
  Variables (M : Mat Nt) (n : nat) (D : nat -> nat -> Nt).
  Hypothesis HD : diss_matrix M n D.
  Hypothesis HE : exact_from n D.
  Hypothesis Hn : 1 <= n.
  Hypothesis Hn32 : (N.of_nat n <= 4294967295)%N.
  Notation v := (vals D).
  Let HM : is_matrix M n D := proj1 HD.

  Let Hbetter : forall a b, sil_better v n a b = Qlt_bool (rtot v n a) (rtot v n b).
  Proof. intros a b. apply sil_better_rtot. auto. Qed.
  Let Hpos : (0 <= err3 n)%Q := err3_pos n.
  Let Hsum : (0 <= FloatSil.sum_err n)%Q := sum_err_pos n.
  Let Hsmall : (64 * FloatSil.sum_err n <= err3 n)%Q := sum_err_small Hn.
  Let Heps : (eps3 n == 4 * err3 n)%Q := eps3_err n.
  Let H2 : (2 * err3 n <= eps3 n)%Q.
  Proof. lra. Qed.
  Let Hl2 : (2 * FloatSil.sum_err n <= eps3 n)%Q.
  Proof. lra. Qed.

  (** what a run returns: the medoids and counters of a reference search, from the loss [s] *)
  Definition sil_run (ref : list nat * nat * nat) (k maxiter : nat) (med : list nat) (s : f64) (swaps iter : nat) : Prop :=
    (med, swaps, iter) = ref /\ medoids n k med /\ loss_near n D med s /\
    (iter < maxiter -> forall b j, b < k -> j < n -> ~ In j med -> (rtot v n med <= rtot v n (swap med b j))%Q).

  (** ** three or more medoids *)
  Section Three.
    Hypothesis HA : adds_within serr n D.

    Lemma mc_medoids k s : m_core n D k s -> medoids n k (m_med s).
    Proof. intros [[i1 i2 i3 i4] _ h _ _]. split; auto. Qed.

    Lemma msc_cand_sep k (s : mst Nt f64) j : 3 <= k -> j < n -> m_core n D k s ->
      oks (msc_cand M s j) (eager_step k (rtot v n) (err3 n) (@m_med Nt f64) (@m_last Nt f64) (@m_swaps Nt f64) (@m_iter Nt f64) (m_core n D k) s j).
    Proof.
      intros hk hj hg. pose proof hg as [g1 g2 g3 g4 g5]. pose proof g1 as [i1 i2 i3 i4].
      assert (hk2 : 2 <= k) by lia.
      pose proof (msc_cand_ok (Lt := f64) HM Hn hk2 hj g1) as hc.
      pose proof (msc_cand_near HD HE Hn Hn32 HA hk hj hg) as hnear.
      apply oks_inv in hc as (c & ec & hc). apply oks_elim with (2 := ec) in hnear. rewrite ec. cbn [oks].
      destruct (emb_vals HD) as [hemb hdg].
      assert (hfb : forall change b, find_best_swap3 M (m_rl s) (m_data s) j = Ok (change, b) -> slot_near3 n D (m_med s) j (change, b)).
      { intros change b e.
        assert (hl : length (m_rl s) = length (m_med s)) by congruence.
        assert (hk' : 3 <= length (m_med s)) by lia.
        pose proof (find_best_swap3_near HD HE Hn Hn32 HA i2 hk' i3 hl hj g4) as hb.
        apply oks_elim with (2 := e) in hb. exact hb. }
      destruct hc as [e1|r a e1 e2 e3 e4|ch b e1 e2 e3|r a ch b data' rl' loss' e1 e2 e3 e4 e5 e6 e7 e8 e9].
      - split; auto.
      - split; [auto|]. split; [auto|]. split; [auto|]. left. split; [auto|].
        intros hni. exfalso. apply hni. rewrite <- e4. apply nth_In.
        destruct (rec3_near (proj2 i3 j r e2)) as (a' & a2 & ea & ha & _). congruence.
      - split; [auto|]. split; [auto|]. split; [auto|]. left. split; [auto|].
        intros hni c hc. destruct (hfb _ _ e2) as (b1 & b2 & b3 & b4). cbn [fst snd] in *.
        apply f64_lleb in e3; [|auto|exact I]. rewrite zero_val in e3. specialize (b4 c ltac:(lia)). unfold gain in b4. lra.
      - destruct (hfb _ _ e5) as (b1 & b2 & [b3 b3'] & b4). cbn [fst snd] in *.
        apply f64_lleb_false in e6; [|auto|exact I]. rewrite zero_val in e6.
        assert (hjm : ~ In j (m_med s)) by eauto using own3_not_in.
        destruct hnear as (q1 & q2 & q3 & _). split; [auto|]. split; [auto|]. split; [auto|]. right.
        cbn [m_med m_last m_swaps]. split; [auto|]. split; [auto|]. split; [auto|]. exists b.
        unfold gain in *. split; [lia|]. split; [symmetry; apply swap_set_nth; auto|]. split; [lra|].
        intros c hc. specialize (b4 c ltac:(lia)). lra.
    Qed.

    Lemma fastermsc_sep k maxiter (s0 : mst Nt f64) : 3 <= k -> swaps_apart (rtot v n) n k (eps3 n) ->
      m_core n D k s0 -> m_last s0 = n -> m_swaps s0 = 0 -> m_iter s0 = 0 ->
      oks (whileM maxiter (msc_iteration M) s0) (fun s =>
        sil_run (eager_swaps (sil_better v n) (seq 0 n) (m_med s0) maxiter) k maxiter (m_med s) (m_loss s) (m_swaps s) (m_iter s)).
    Proof.
      intros hk hsep hg hl hs hi.
      assert (hk2 : 2 <= k) by lia.
      assert (E2 : whileM maxiter (msc_iteration M) s0 = whileM maxiter (iteration (msc_cand M) (seq 0 n) (@m_swaps Nt f64)
        (@inc3 Nt f64) (fun a b => lleb (m_loss a) (m_loss b))) s0).
      { generalize s0. induction maxiter as [|m IH]; intros s; cbn [whileM]; [auto|].
        unfold msc_iteration at 1, iteration at 1. rewrite (len_n HM). fold (inc3 s).
        destruct (forM (msc_cand M) (seq 0 n) (inc3 s)) as [s'|]; cbn [bind]; [|auto].
        destruct ((m_swaps s' =? m_swaps s) || lleb (m_loss s) (m_loss s')); cbn [bind]; auto. }
      rewrite E2. eapply oks_mono.
      - apply eager_apart with (n := n) (k := k) (f := rtot v n) (better := sil_better v n) (E := err3 n) (e := eps3 n)
          (md := @m_med Nt f64) (last := @m_last Nt f64) (iter := @m_iter Nt f64) (el := FloatSil.sum_err n) (good := m_core n D k); auto.
        + intros a b. apply rtot_same_set. auto.
        + intros s [[] ? ? ? ?]. constructor; auto. constructor; auto.
        + intros s h. apply mc_medoids. auto.
        + intros s h. destruct (mc_loss HD HE Hn Hn32 h) as [[q _] q']. auto.
        + intros s j hj h. apply msc_cand_sep; auto.
      - intros s (h1 & h2 & h3). split; [exact h2|]. split; [apply mc_medoids; auto|]. split; [apply (mc_loss HD HE Hn Hn32 h1)|exact h3].
    Qed.
  End Three.

  (** ** fastmsc and pammedsil *)
  Lemma qa_medoids k s : q_all n D k s -> medoids n k (m_med s).
  Proof. intros [[i1 i2 i3] _ h _]. split; auto. Qed.

  Lemma swap_best3_sep k (st : mst Nt f64) rl best :
    2 <= k -> sets_apart (rtot v n) n k (eps3 n) -> q_all n D k (inc3 st) -> best_near3 n D (m_med st) n best ->
    oks (swap_best3 M (inc3 st) rl best) (fun c => m_rl (match c with Next s => s | Break s => s end) = rl /\
      steep_step n k (rtot v n) (err3 n) (@m_med Nt f64) (@m_swaps Nt f64) (@m_iter Nt f64) (@m_loss Nt f64) (q_all n D k) st c).
  Proof.
    intros hk hsep hi (b1 & b2 & b3 & b4). pose proof (qa_medoids hi) as hm. pose proof (qa_loss hi) as hloss.
    pose proof hi as [[i1 i2 i3] hown hnd hsum]. unfold swap_best3.
    cbn [inc3 m_med m_data m_loss m_swaps m_iter m_last] in *.
    pose proof hloss as [(lf & lw1 & lw2) [l1 l2]]. destruct (emb_vals HD) as [hemb hdg].
    pose proof (sets_swaps hsep) as hsw.
    destruct (lltb lzero (fst best)) eqn:e.
    - apply f64_lltb in e; [|exact I|auto]. rewrite zero_val in e.
      destruct (snd best) as [[b j]|] eqn:es; [|lra].
      destruct b3 as (hb & hj & hjm & b3 & b3'). unfold gain in *.
      assert (hk' : 2 <= length (m_med st)) by lia.
      assert (hbk : b < k) by lia.
      assert (hgo : (rtot v n (swap (m_med st) b j) + eps3 n < rtot v n (m_med st))%Q).
      { apply (@sep_go n k (rtot v n) (err3 n) (eps3 n) Hpos H2 _ b j hsw hm hbk hj hjm). lra. }
      pose proof (do_swap3_ok (Lt := f64) HM Hn i2 hj hb hk' i3) as hs.
      apply oks_inv in hs as ([[med' data'] loss'] & -> & -> & hd & s2 & s3 & s4). cbn [bind].
      pose proof (@swap3_sum _ _ _ _ data' loss' b j s2 s3) as hs'.
      pose proof (loss3_near HD HE Hn Hn32 (inr_set_nth b i2 hj) hd hs') as hl3. pose proof hl3 as [(lf' & _) [l1' l2']].
      rewrite <- swap_set_nth in l1', l2' by auto.
      destruct (lleb (m_loss st) loss') eqn:el.
      { exfalso. apply f64_lleb in el; auto. lra. }
      cbn [oks m_rl]. split; [auto|]. cbn [steep_step m_med m_swaps m_iter]. split; [|split; [auto|split; [auto|]]].
      + constructor; cbn [m_med m_data m_loss].
        * constructor; cbn [m_med m_data]; auto; [rewrite length_set_nth; auto|apply inr_set_nth; auto].
        * eapply s4; eauto.
        * apply NoDup_set_nth; auto.
        * auto.
      + exists b, j. split; [auto|]. split; [auto|]. split; [auto|]. split; [symmetry; apply swap_set_nth; auto|]. split; [lra|].
        intros c j' hc hj' hjm'. specialize (b4 j' c hj' hjm' ltac:(lia)). lra.
    - apply f64_lltb_false in e; [|exact I|auto]. rewrite zero_val in e.
      cbn [oks m_rl]. split; [auto|]. cbn [steep_step m_med m_swaps m_iter m_loss].
      split; [constructor; auto; constructor; auto|]. do 4 (split; [auto|]).
      intros b j hb hj hjm. specialize (b4 j b hj hjm ltac:(lia)). unfold gain in b4. lra.
  Qed.

  Lemma steep3_sep k maxiter (body : mst Nt f64 -> res (ctl (mst Nt f64))) (good : mst Nt f64 -> Prop) (st : mst Nt f64) :
    2 <= k -> sets_apart (rtot v n) n k (eps3 n) ->
    (forall s, q_all n D k s -> good s -> oks (body s) (fun c => good (match c with Next s => s | Break s => s end) /\
      steep_step n k (rtot v n) (err3 n) (@m_med Nt f64) (@m_swaps Nt f64) (@m_iter Nt f64) (@m_loss Nt f64) (q_all n D k) s c)) ->
    q_all n D k st -> good st -> m_swaps st = 0 -> m_iter st = 0 ->
    oks (whileM maxiter body st) (fun s =>
      sil_run (best_swaps (sil_better v n) n (m_med st) maxiter) k maxiter (m_med s) (m_loss s) (m_swaps s) (m_iter s)).
  Proof.
    intros hk hsep hbody hq hg hs hi. eapply oks_mono.
    - apply steep_apart with (n := n) (k := k) (f := rtot v n) (better := sil_better v n) (E := err3 n) (e := eps3 n)
        (md := @m_med Nt f64) (swaps := @m_swaps Nt f64) (iter := @m_iter Nt f64) (loss := @m_loss Nt f64)
        (el := FloatSil.sum_err n) (good := fun s => q_all n D k s /\ good s); auto.
      + intros s [h _]. apply qa_medoids. auto.
      + intros s [h _]. destruct (qa_loss h) as [[q _] q']. auto.
      + intros s [h1 h2]. eapply oks_mono; [apply (hbody s h1 h2)|].
        intros [s'|s'] [g1 g2]; cbn [steep_step] in *; destruct g2 as [g2 g3]; auto.
    - intros s ([h1 _] & h2 & h3). split; [exact h2|]. split; [apply qa_medoids; auto|]. split; [apply (qa_loss h1)|exact h3].
  Qed.

  Lemma fastmsc_sep k maxiter (st : mst Nt f64) : adds_within serr n D ->
    3 <= k -> sets_apart (rtot v n) n k (eps3 n) -> q_all n D k st -> length (m_rl st) = k -> m_swaps st = 0 -> m_iter st = 0 ->
    oks (whileM maxiter (fastmsc_iteration M) st) (fun s =>
      sil_run (best_swaps (sil_better v n) n (m_med st) maxiter) k maxiter (m_med s) (m_loss s) (m_swaps s) (m_iter s)).
  Proof.
    intros HA hk hsep hq hl hs hit. apply steep3_sep with (good := fun s => length (m_rl s) = k); auto; [lia|].
    clear st hq hl hs hit. intros st hq hl. unfold fastmsc_iteration. fold (inc3 st).
    pose proof (inc3_all hq) as hq1. pose proof hq1 as [[i1 i2 i3] _ _ _].
    assert (hu : oks (update_removal_loss3 (m_data (inc3 st)) (m_rl (inc3 st)))
      (fun rl => length rl = length (m_med (inc3 st)) /\ rl_near3 n (m_data (inc3 st)) rl)).
    { apply (update_removal_loss3_near HD HE Hn Hn32); auto; [lia|]. rewrite i1. exact hl. }
    apply oks_inv in hu as (rl & -> & hrl & hrn). cbn [bind]. rewrite (len_n HM).
    eapply oks_bind with (P := best_near3 n D (m_med st) n).
    - apply foldM_seq with (I := best_near3 n D (m_med st)); [apply best3_0; auto|].
      intros j best hj hb. apply (fastmsc_cand_near HD HE Hn Hn32 HA) with (k := k) (st := inc3 st); auto. congruence.
    - intros best hb. assert (hk2 : 2 <= k) by lia. eapply oks_mono; [apply (swap_best3_sep rl hk2 hsep hq1 hb)|].
      intros c [q1 q2]. split; [rewrite q1, hrl; auto|exact q2].
  Qed.

  Lemma pms_sep k maxiter (st : mst Nt f64) :
    2 <= k -> sets_apart (rtot v n) n k (eps3 n) -> q_all n D k st -> m_swaps st = 0 -> m_iter st = 0 ->
    oks (whileM maxiter (pms_iteration M) st) (fun s =>
      sil_run (best_swaps (sil_better v n) n (m_med st) maxiter) k maxiter (m_med s) (m_loss s) (m_swaps s) (m_iter s)).
  Proof.
    intros hk hsep hq hs hit. apply steep3_sep with (good := fun _ => True); auto.
    clear st hq hs hit. intros st hq _. unfold pms_iteration. fold (inc3 st).
    pose proof (inc3_all hq) as hq1. rewrite (len_n HM).
    eapply oks_bind with (P := best_near3 n D (m_med st) n).
    - apply foldM_seq with (I := best_near3 n D (m_med st)); [apply best3_0; auto|].
      intros j best hj hb. apply (pms_cand_near HD HE Hn Hn32) with (k := k) (st := inc3 st); auto.
    - intros best hb. eapply oks_mono; [apply (swap_best3_sep _ hk hsep hq1 hb)|].
      intros c [q1 q2]. split; [auto|exact q2].
  Qed.
  (** ** two medoids *)
  (** a swap which leaves the medoids as they are does not change the computed loss *)
  Lemma term2_same med assi data (xs : list f64) b o : length med = 2 -> inr n med -> tab2 n D med assi data xs -> b < 2 -> o < n ->
    nth o xs lzero = term2 D med o b (nth b med 0).
  Proof.
    intros hl hin ht hb ho. destruct (tab2_get ht ho) as (a & d & x & ha & hd & hx & hobj).
    rewrite (nth_error_nth _ _ lzero hx). destruct (obj2_entry HD hl hin ho hobj) as (ha2 & -> & hle).
    assert (hm : forall c, c < 2 -> nth c med 0 < n) by (intros; apply inr_nth; auto; lia).
    unfold term2. rewrite (nltb_dec HD) by (auto; apply hm; lia).
    assert (hsame : forall x y, x < n -> y < n -> (v o x == v o y)%Q -> ratio (Lt := f64) (D o x) (D o y) = ratio (D o y) (D o x)).
    { intros p q hp hq e. unfold ratio.
      destruct (nis_zero (D o p)) eqn:e1; destruct (nis_zero (D o q)) eqn:e2; auto.
      cbn [orb]. destruct (HE ho hp) as [p1 p2]. destruct (HE ho hq) as [q1 q2].
      pose proof (pos_entry HD ho hp e1) as hpos.
      assert (ev : lfrom (D o p) = (lfrom (D o q) : f64)); [|rewrite ev; reflexivity].
      fold v in *. apply f64_val_inj; auto.
      - intros c. rewrite c in p2. change (f64_val (S754_zero true)) with 0%Q in p2. lra.
      - intros c. rewrite c in q2. change (f64_val (S754_zero true)) with 0%Q in q2. lra.
      - rewrite p2, q2. exact e. }
    destruct (Nat.eq_dec a b) as [->|hne].
    - destruct (Qlt_le_dec (v o (nth b med 0)) (v o (nth (1 - b) med 0))) as [h|h]; [reflexivity|].
      apply hsame; [apply hm; lia|apply hm; lia|lra].
    - assert (ea : a = 1 - b) by lia. subst a. replace (1 - (1 - b)) with b in * by lia.
      destruct (Qlt_le_dec (v o (nth b med 0)) (v o (nth (1 - b) med 0))) as [h|h]; [lra|reflexivity].
  Qed.

  Lemma sum_same (g : nat -> f64) s : (forall o, o < n -> FloatSil.within 0 1 (g o)) ->
    reduce ladd (map g (seq 0 n)) = Some s -> (f64_val (fold_left ladd (map g (seq 0 n)) (lzero : f64)) == f64_val s)%Q.
  Proof.
    intros hg hs.
    assert (h53 : FloatSil.fits53 n) by (apply fits_u32; auto).
    assert (hfold : forall m t a a', t + m <= n -> FloatSil.within 0 (FloatSil.cnt t) a -> FloatSil.within 0 (FloatSil.cnt t) a' ->
      (f64_val a == f64_val a')%Q ->
      (f64_val (fold_left ladd (map g (seq t m)) a) == f64_val (fold_left ladd (map g (seq t m)) a'))%Q).
    { induction m as [|m IH]; intros t a a' hle ha ha' e; cbn [seq map fold_left]; [exact e|].
      assert (hf : FloatSil.fits53 (S t)) by (unfold FloatSil.fits53 in *; lia).
      pose proof (hg t ltac:(lia)) as hgt.
      assert (hadd : forall x : f64, FloatSil.within 0 (FloatSil.cnt t) x -> FloatSil.within 0 (FloatSil.cnt (S t)) (ladd x (g t))).
      { intros x hx. destruct (@FloatSil.add_close t x (g t) (f64_val x) (f64_val (g t)) hf hx) as [h _]; auto.
        - unfold FloatSil.close. pose proof (sum_err_pos t). lra.
        - unfold FloatSil.close. assert (0 < 2 ^ (-53))%Q by reflexivity. lra. }
      apply IH; [lia|auto|auto|].
      assert (hb : (FloatSil.cnt (S t) <= 2 ^ 1023)%Q).
      { pose proof (@FloatSil.cnt_big (S t) 0 hf ltac:(lia)) as h. change (2 ^ 0)%Q with 1%Q in h.
        assert (2 ^ 1022 <= 2 ^ 1023)%Q by (apply pow2_le; lia). lra. }
      rewrite cnt_S in hb. destruct ha as (a1 & a2 & a3). destruct ha' as (a1' & a2' & a3'). destruct hgt as (g1 & g2 & g3).
      apply add_same_val with (B := (FloatSil.cnt t + 1)%Q); auto; [reflexivity|lra|lra]. }
    revert hs. replace (seq 0 n) with (0 :: seq 1 (n - 1)) by (destruct n; [lia|]; cbn [seq Nat.sub]; rewrite Nat.sub_0_r; reflexivity).
    cbn [map reduce fold_left]. intros hs. injection hs as <-. pose proof (hg 0 Hn) as h0. pose proof h0 as (g1 & g2 & g3).
    assert (e0 : (f64_val (ladd (lzero : f64) (g 0%nat)) == f64_val (g 0%nat))%Q).
    { assert (hr : rounds (f64_val (lzero : f64) + f64_val (g 0%nat)) (ladd (lzero : f64) (g 0%nat))).
      { assert (1 <= 2 ^ 1023)%Q by (vm_compute; discriminate). apply add_rounds; auto; try exact I; rewrite zero_val; lra. }
      pose proof (FloatRound.rounds_le (g 0) hr g1) as q1. pose proof (FloatRound.rounds_ge (g 0) hr g1) as q2.
      rewrite zero_val in q1, q2. specialize (q1 ltac:(lra)). specialize (q2 ltac:(lra)). lra. }
    apply hfold; [lia| |exact h0|exact e0].
    destruct (@FloatSil.add_close 0 (lzero : f64) (g 0) 0%Q (f64_val (g 0%nat))) as [h _]; auto.
    - unfold FloatSil.fits53 in *. lia.
    - split; [exact I|]. rewrite zero_val. change (FloatSil.cnt 0) with 0%Q. lra.
    - unfold FloatSil.close. rewrite zero_val. pose proof (sum_err_pos 0). lra.
    - unfold FloatSil.close. assert (0 < 2 ^ (-53))%Q by reflexivity. lra.
  Qed.

  Lemma find_best_k2_same med assi data (xs : list f64) s j x b :
    length med = 2 -> inr n med -> tab2 n D med assi data xs -> reduce ladd xs = Some s -> j < n ->
    find_best_swap_k2 M data j = Ok (x, b) -> b < 2 -> nth b med 0 = j -> (f64_val x == f64_val s)%Q.
  Proof.
    intros hl hin ht hs hj hf hb hbj.
    pose proof (find_best_swap_k2_near HD HE Hn Hn32 hl hin ht hj) as hnear. apply oks_elim with (2 := hf) in hnear.
    assert (h : oks (find_best_swap_k2 (Lt := f64) M data j) (fun p => snd p < 2 /\
      fst p = fold_left ladd (map (fun o => term2 D med o (snd p) j) (seq 0 n)) (lzero : f64))).
    { unfold find_best_swap_k2. pose proof ht as (_ & hlen & _).
      pose (g := fun t c => fold_left ladd (map (fun o => term2 D med o c j) (seq 0 t)) (lzero : f64)).
      assert (gS : forall t c, g (S t) c = ladd (g t c) (term2 D med t c j)).
      { intros t c. unfold g. rewrite seq_S, map_app, fold_left_app. reflexivity. }
      assert (gfin : forall t c, t <= n -> c < 2 -> f64_finite (g t c)).
      { intros t c. intros hle hc.
        assert (hw : FloatSil.within 0 (FloatSil.cnt t) (g t c)); [|apply hw].
        induction t as [|t IH].
        - split; [exact I|]. change (g 0 c) with (lzero : f64). rewrite zero_val. change (FloatSil.cnt 0) with 0%Q. lra.
        - rewrite gS. assert (hf' : FloatSil.fits53 (S t)) by (pose proof (@fits_u32 n Hn32) as h53; unfold FloatSil.fits53 in *; lia).
          destruct (@term2_in _ _ _ _ M n D HD HE Hn Hn32 med t c j) as [q1 q2]; auto.
          assert (hc0 : FloatSil.close (FloatSil.sum_err t) (f64_val (g t c)) (g t c)) by (unfold FloatSil.close; pose proof (sum_err_pos t); lra).
          destruct (@FloatSil.add_close t (g t c) (term2 D med t c j) _ _ hf' (IH ltac:(lia)) hc0 q1 q2) as [h _]; exact h. }
      eapply oks_bind.
      - apply foldM_enum with (I := fun t (pl : f64 * f64) => t <= n -> fst pl = g t 0 /\ snd pl = g t 1); [auto|].
        intros o [d0 d1] pl ho hI.
        assert (hon : o < n) by (rewrite <- hlen; apply nth_error_lt with (1 := ho)).
        destruct (hI ltac:(lia)) as [h1 h2].
        destruct (tab2_get ht hon) as (a & d & x' & ha & hd & hx' & hobj).
        rewrite ho in hd. injection hd as <-.
        destruct hobj as (_ & d0' & d1' & _). cbn [fst snd] in d0', d1'.
        apply (dat_exact HD) in d0'; auto. apply (dat_exact HD) in d1'; auto. subst d0 d1.
        unfold fbs2_step. rewrite (get_ok HM) by auto. cbn [bind oks fst snd]. intros _. rewrite !gS, <- h1, <- h2. auto.
      - rewrite hlen. intros pl hI. destruct (hI (le_n n)) as [h1 h2].
        eapply oks_bind; [apply find_min_f64; [congruence|]|].
        + intros y [<-|[<-|[]]]; [rewrite h1|rewrite h2]; apply gfin; lia.
        + intros [b' x'] (f1 & f2 & f3). cbn [oks fst snd length] in *. split; [auto|].
          rewrite f2. destruct b' as [|[|]]; [exact h1|exact h2|lia]. }
    apply oks_elim with (2 := hf) in h. cbn [fst snd] in h. destruct h as [_ ->].
    destruct (tab2_terms HD HE Hn Hn32 hl hin ht) as [exs hterms].
    assert (em : map (fun o => term2 D med o b j) (seq 0 n) = map (fun o => nth o xs lzero) (seq 0 n)).
    { apply map_ext_in. intros o ho. apply in_seq in ho. rewrite <- hbj. symmetry. eapply term2_same; eauto. lia. }
    rewrite em. apply sum_same; [|rewrite <- exs; exact hs]. intros o ho. apply (hterms o ho).
  Qed.

  Lemma kg_medoids (s : kst Nt f64) : k_good n D s -> medoids n 2 (k_med s).
  Proof. intros [[i1 i2 _] h]. split; auto. Qed.

  (** only a swap with an object which is not a medoid lowers the computed loss *)
  Lemma lower_new (s : kst Nt f64) j x b : k_good n D s -> j < n -> find_best_swap_k2 M (k_data s) j = Ok (x, b) ->
    slot2 n D (k_med s) j (x, b) -> (f64_val x < f64_val (k_loss s))%Q -> ~ In j (k_med s).
  Proof.
    intros hg hj hf (q1 & _ & _ & q4) hlt hin. cbn [fst snd] in *. pose proof hg as [[i1 i2 (xs & ht & hr)] hnd].
    apply nth_In_iff in hin as (c & hc & e). rewrite i1 in hc. destruct (Nat.eq_dec c b) as [->|hne].
    - pose proof (find_best_k2_same i1 i2 ht hr hj hf q1 e). lra.
    - assert (ec : c = 1 - b) by lia. subst c. specialize (q4 e).
      assert (hjm : In j (k_med s)) by (rewrite <- e; apply nth_In; lia).
      pose proof (tab2_far HD HE Hn Hn32 j i1 i2 ht hr hjm). lra.
  Qed.

  Lemma k2_cand_sep (s : kst Nt f64) j : j < n -> k_good n D s ->
    oks (k2_cand M s j) (eager_step 2 (rtot v n) (err3 n) (@k_med Nt f64) (@k_last Nt f64) (@k_swaps Nt f64) (@k_iter Nt f64) (k_good n D) s j).
  Proof.
    intros hj hg. pose proof hg as [hi hnd]. pose proof hi as [i1 i2 (xs & ht & hr)].
    pose proof (kg_loss2 HD HE Hn Hn32 hg) as [(lf & _) [l1 l2]].
    assert (hfb : forall x b, find_best_swap_k2 M (k_data s) j = Ok (x, b) -> slot2 n D (k_med s) j (x, b)).
    { intros x b e. pose proof (find_best_swap_k2_near HD HE Hn Hn32 i1 i2 ht hj) as hb. apply oks_elim with (2 := e) in hb. exact hb. }
    eapply oks_mono; [apply (k2_cand_shape (Lt := f64) HM Hn hj hi)|].
    intros c [e1|a e1 e2 e3 e4|x b e1 e2 e3|x b assi' data' loss' e1 e2 e3 e4 e5 e6].
    - split; auto.
    - split; [auto|]. split; [auto|]. split; [auto|]. left. split; [auto|]. intros hni. exfalso. apply hni.
      rewrite <- e3. apply nth_In. lia.
    - split; [auto|]. split; [auto|]. split; [auto|]. left. split; [auto|]. intros hni c' hc.
      destruct (hfb _ _ e2) as (q1 & [(q2 & _) _] & q3 & _). cbn [fst snd] in *.
      apply f64_lleb in e3; auto. specialize (q3 c' hc). lra.
    - pose proof (hfb _ _ e2) as hs. pose proof hs as (q1 & [(q2 & _) [q3 q3']] & q4 & _). cbn [fst snd] in *.
      apply f64_lleb_false in e4; auto.
      assert (hjm : ~ In j (k_med s)) by (eapply lower_new; eauto).
      split; [constructor; auto; apply NoDup_set_nth; auto|].
      split; [auto|]. split; [auto|]. right. cbn [k_med k_last k_swaps].
      split; [auto|]. split; [auto|]. split; [auto|]. exists b. split; [auto|].
      split; [symmetry; apply swap_set_nth; lia|]. split; [lra|].
      intros c0 hc. specialize (q4 c0 hc). lra.
  Qed.

  Lemma fastermsc_k2_sep maxiter (s0 : kst Nt f64) : swaps_apart (rtot v n) n 2 (eps3 n) ->
    k_good n D s0 -> k_last s0 = n -> k_swaps s0 = 0 -> k_iter s0 = 0 ->
    oks (whileM maxiter (k2_iteration M) s0) (fun s =>
      sil_run (eager_swaps (sil_better v n) (seq 0 n) (k_med s0) maxiter) 2 maxiter (k_med s) (k_loss s) (k_swaps s) (k_iter s)).
  Proof.
    intros hsep hg hl hs hi.
    assert (E2 : whileM maxiter (k2_iteration M) s0 = whileM maxiter (iteration (k2_cand M) (seq 0 n) (@k_swaps Nt f64)
      (@kinc Nt f64) (fun a b => lleb (k_loss a) (k_loss b))) s0).
    { generalize s0. induction maxiter as [|m IH]; intros s; cbn [whileM]; [auto|].
      unfold k2_iteration at 1, iteration at 1. rewrite (len_n HM). fold (kinc s).
      destruct (forM (k2_cand M) (seq 0 n) (kinc s)) as [s'|]; cbn [bind]; [|auto].
      destruct ((k_swaps s' =? k_swaps s) || lleb (k_loss s) (k_loss s')); cbn [bind]; auto. }
    rewrite E2. eapply oks_mono.
    - apply eager_apart with (n := n) (k := 2) (f := rtot v n) (better := sil_better v n) (E := err3 n) (e := eps3 n)
        (md := @k_med Nt f64) (last := @k_last Nt f64) (iter := @k_iter Nt f64) (el := FloatSil.sum_err n) (good := k_good n D); auto.
      + intros a b. apply rtot_same_set. auto.
      + intros s h. apply kinc_good. auto.
      + intros s h. apply kg_medoids. auto.
      + intros s h. destruct (kg_loss2 HD HE Hn Hn32 h) as [[q _] q']. auto.
      + intros s j hj h. apply k2_cand_sep; auto.
    - intros s (h1 & h2 & h3). split; [exact h2|]. split; [apply kg_medoids; auto|]. split; [apply (kg_loss2 HD HE Hn Hn32 h1)|exact h3].
  Qed.

  Definition best_eval (st : kst Nt f64) (best : f64 * option (nat * nat)) : Prop :=
    match snd best with
    | None => True
    | Some (b, j) => find_best_swap_k2 M (k_data st) j = Ok (fst best, b)
    end.

  Lemma fastmsc_k2_cand_eval st best j :
    j < n -> k_good n D st -> best_eval st best -> oks (fastmsc_k2_cand M st best j) (best_eval st).
  Proof.
    intros hj [[i1 i2 (xs & ht & hr)] hnd] hb. unfold fastmsc_k2_cand.
    destruct (tab2_get ht hj) as (a & d & x & ha & hd & hx & hobj).
    rewrite (idx_some _ _ ha). cbn [bind]. destruct hobj as (ha2 & _).
    rewrite idx_nth with (d := 0) by lia. cbn [bind].
    destruct (j =? nth a (k_med st) 0); [exact hb|].
    pose proof (find_best_swap_k2_near HD HE Hn Hn32 i1 i2 ht hj) as hf.
    apply oks_inv in hf as ([nl b] & ef & _). rewrite ef. cbn [bind oks].
    destruct (snd best) as [[b' j']|] eqn:es; [|exact ef].
    destruct (lltb nl (fst best)); [exact ef|]. unfold best_eval in *. rewrite es in *. exact hb.
  Qed.

  Lemma fastmsc_k2_iteration_sep st : 2 <= n -> sets_apart (rtot v n) n 2 (eps3 n) -> k_good n D st ->
    oks (fastmsc_k2_iteration M st)
      (steep_step n 2 (rtot v n) (err3 n) (@k_med Nt f64) (@k_swaps Nt f64) (@k_iter Nt f64) (@k_loss Nt f64) (k_good n D) st).
  Proof.
    intros hn2 hsep hg. unfold fastmsc_k2_iteration. fold (kinc st). rewrite (len_n HM).
    pose proof (kinc_good hg) as hg1. pose proof (kg_loss2 HD HE Hn Hn32 hg) as hloss. pose proof (kg_medoids hg) as hm.
    pose proof hloss as [(lf & _) [l1 l2]]. pose proof hg as [[i1 i2 (xs & ht & hr)] hnd]. destruct (emb_vals HD) as [hemb hdg].
    eapply oks_bind with (P := fun best => best2_near n D (kinc st) n best /\ best_eval (kinc st) best).
    - apply foldM_seq with (I := fun t best => best2_near n D (kinc st) t best /\ best_eval (kinc st) best).
      + split; [|exact I]. split; auto. intros; lia.
      + intros j best hj [hb hb'].
        pose proof (fastmsc_k2_cand_near HD HE Hn Hn32 best hj hg1 hb) as h1.
        pose proof (fastmsc_k2_cand_eval best hj hg1 hb') as h2.
        apply oks_inv in h1 as (c & ec & h1). rewrite ec in h2 |- *. cbn [oks] in *. auto.
    - intros best [hb hbe]. cbn [kinc k_med k_loss k_assi k_data k_swaps k_iter k_last] in *.
      destruct (lltb (fst best) (k_loss st)) eqn:e; cbn [negb].
      + unfold best2_near in hb. unfold best_eval in hbe. destruct (snd best) as [[b j]|] eqn:es.
        * cbn [kinc k_med k_data] in hb, hbe. destruct hb as (hj & hs & hbest).
          pose proof hs as (q1 & [(q2 & _) [q3 q3']] & _). cbn [fst snd] in *.
          apply f64_lltb in e; auto.
          assert (hjm : ~ In j (k_med st)) by (eapply lower_new; eauto).
          assert (hgo : (rtot v n (swap (k_med st) b j) + eps3 n < rtot v n (k_med st))%Q).
          { apply (@sep_go n 2 (rtot v n) (err3 n) (eps3 n) Hpos H2 _ b j (sets_swaps hsep) hm q1 hj hjm). lra. }
          pose proof (do_swap_k2_shape (Lt := f64) HM Hn i1 ht q1 hj) as hsw.
          apply oks_inv in hsw as ([[[med' assi'] data'] loss'] & -> & -> & xs' & ht' & hr'). cbn [bind].
          assert (hi' : inr n (set_nth (k_med st) b j)) by (apply inr_set_nth; auto).
          assert (hl' : length (set_nth (k_med st) b j) = 2) by (rewrite length_set_nth; auto).
          pose proof (tab2_near HD HE Hn Hn32 hl' hi' ht' hr') as hloss'. pose proof hloss' as [(lf' & _) [l1' l2']].
          rewrite <- swap_set_nth in l1', l2' by lia.
          destruct (lltb loss' (k_loss st)) eqn:e2; cbn [negb oks].
          -- cbn [steep_step k_med k_swaps k_iter]. split; [|split; [auto|split; [auto|]]].
             { constructor; [constructor|]; cbn [k_med k_assi k_data k_loss]; eauto. apply NoDup_set_nth; auto. }
             exists b, j. split; [auto|]. split; [auto|]. split; [auto|]. split; [symmetry; apply swap_set_nth; lia|]. split; [lra|].
             intros c j' hc hj' hjm'. pose proof (not_in_evald hg1 (j := j') hj' hjm') as hev.
             specialize (hbest j' c hj' hev hc). lra.
          -- exfalso. apply f64_lltb_false in e2; auto. lra.
        * exfalso. destruct hb as [hb1 hb2]. rewrite hb1 in e.
          pose proof (all_skipped_loss hdg (zero_is_zero (Nt := Nt)) hn2 (kg_inv hg1) hb2) as hz.
          cbn [kinc k_loss] in hz. rewrite hz in e. discriminate e.
      + cbn [oks steep_step kinc k_med k_loss k_swaps k_iter]. split; [exact hg1|]. do 4 (split; [auto|]).
        intros c j hc hj hjm. pose proof (not_in_evald hg1 (j := j) hj hjm) as hev.
        unfold best2_near in hb. destruct (snd best) as [[b0 j0]|].
        * cbn [kinc k_med] in hb. destruct hb as (q1 & q2 & q3). pose proof q2 as (_ & [(q4 & _) _] & _). cbn [fst snd] in *.
          apply f64_lltb_false in e; auto. specialize (q3 j c hj hev hc). lra.
        * exfalso. destruct hb as [_ hb2]. apply hev. apply hb2. auto.
  Qed.

  Lemma fastmsc_k2_sep maxiter (st : kst Nt f64) : 2 <= n -> sets_apart (rtot v n) n 2 (eps3 n) ->
    k_good n D st -> k_swaps st = 0 -> k_iter st = 0 ->
    oks (whileM maxiter (fastmsc_k2_iteration M) st) (fun s =>
      sil_run (best_swaps (sil_better v n) n (k_med st) maxiter) 2 maxiter (k_med s) (k_loss s) (k_swaps s) (k_iter s)).
  Proof.
    intros hn2 hsep hg hs hi. eapply oks_mono.
    - apply steep_apart with (n := n) (k := 2) (f := rtot v n) (better := sil_better v n) (E := err3 n) (e := eps3 n)
        (md := @k_med Nt f64) (swaps := @k_swaps Nt f64) (iter := @k_iter Nt f64) (loss := @k_loss Nt f64)
        (el := FloatSil.sum_err n) (good := k_good n D); auto.
      + intros s h. apply kg_medoids. auto.
      + intros s h. destruct (kg_loss2 HD HE Hn Hn32 h) as [[q _] q']. auto.
      + intros s h. apply fastmsc_k2_iteration_sep; auto.
    - intros s (h1 & h2 & h3). split; [exact h2|]. split; [apply kg_medoids; auto|]. split; [apply (kg_loss2 HD HE Hn Hn32 h1)|exact h3].
  Qed.

  (** ** the initialization of pammedsil *)
  Section Build.
    Variables (mx e : Q).
    Hypothesis Hmx : forall x y, x < n -> y < n -> (vals D x y <= mx)%Q.
    Hypothesis Hbig : (mx <= 2 ^ 970)%Q.
    Hypothesis He : (2 * FloatSwap.err (Lt := f64) n mx <= e)%Q.

    Lemma build3_sep k : 1 <= k -> k + 1 < n -> (forall i, 1 <= i <= k -> sets_apart (tdev v n) n i e) ->
      oks (pammedsil_build_initialize (Lt := f64) M k) (fun st => build3_near M n D mx k st /\
        b3_meds st = grow v n (seq 1 (n - 1)) (k - 1) [best_next v n []]).
    Proof.
      intros hk hkn hsep. pose proof (err_pos (Lt := f64) HD Hmx Hn) as hep.
      eapply oks_mono; [apply (build3_all_near HD HE Hmx Hbig Hn Hn32 hk)|].
      intros st (l & hl & hg & hz). pose proof hg as [h1 h2 h3 h4 h5 h6 h7 h8].
      assert (g : length (b3_meds st) = k /\ grow v n (seq 1 (n - 1)) (k - 1) [best_next v n []] = b3_meds st).
      { apply grow_sep with (e := e); auto; try lia.
        - apply (BuildFacts.v_diss HD).
        - lra.
        - split; auto.
        - intros i y hi hy h0. assert (h0' : i = 0 \/ y <> 0) by lia. specialize (h7 i y hi hy h0'). lra.
        - intros i hi. apply h8. lia.
        - destruct hz as [hz|[_ hz]]; [left; lia|right]. intros y hy. specialize (hz y hy). lra. }
      destruct g as [g1 g2]. assert (el : l = k) by lia. rewrite el in hg. split; [exact hg|symmetry; exact g2].
    Qed.
  End Build.
End Msc.
