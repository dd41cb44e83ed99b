(** FloatSep.v -- rounding: when no two sets of medoids have nearly the same total deviation, the algorithms of the PAM
    family make exactly the choices of exact arithmetic, for losses in any format of FloatFmt.v *)
From Coq Require Import ZArith QArith Qabs Lqa Lia Permutation.
From Verif Require Import Base Num M_Mat M_Util M_Fasterpam M_ParFasterpam M_Pam Hoare Spec SpecFacts Laws PamShape PamExact
  PamFacts FpFacts ParFacts Reference LocalSearch FloatSil FloatLoss FloatMain FloatFmt FloatSwap FloatPar BuildFacts FloatBuild FloatQuality.
Set Implicit Arguments.
Open Scope nat_scope.

(** the two lists have the same elements *)
Definition same_set (a b : list nat) : Prop := forall x, In x a <-> In x b.

(** replacing one medoid by an object which is not a medoid changes [f] by more than [e] *)
Definition swaps_apart (f : list nat -> Q) (n k : nat) (e : Q) : Prop :=
  forall med b j, medoids n k med -> b < k -> j < n -> ~ In j med -> (e < Qabs (f (swap med b j) - f med))%Q.

(** [f] differs by more than [e] between any two different sets of [k] medoids *)
Definition sets_apart (f : list nat -> Q) (n k : nat) (e : Q) : Prop :=
  forall a b, medoids n k a -> medoids n k b -> ~ same_set a b -> (e < Qabs (f a - f b))%Q.

Lemma apart_le (e x : Q) : (e < Qabs x)%Q -> (x <= e)%Q -> (x < - e)%Q.
Proof.
  intros h1 h2. destruct (Qlt_le_dec x (- e)) as [|h]; [auto|]. exfalso.
  assert (Qabs x <= e)%Q by (apply Qabs_Qle_condition; lra). lra.
Qed.
Lemma apart_ge (e x : Q) : (e < Qabs x)%Q -> (- e <= x)%Q -> (e < x)%Q.
Proof.
  intros h1 h2. destruct (Qlt_le_dec e x) as [|h]; [auto|]. exfalso.
  assert (Qabs x <= e)%Q by (apply Qabs_Qle_condition; lra). lra.
Qed.

Lemma medoids_swap n k med b j : medoids n k med -> b < k -> j < n -> ~ In j med -> medoids n k (swap med b j).
Proof.
  intros (h1 & h2 & h3) hb hj hjm. rewrite swap_set_nth by lia. split; [rewrite length_set_nth; auto|].
  split; [apply NoDup_set_nth; auto|]. apply inr_set_nth; auto.
Qed.

Lemma in_swap med b j x : NoDup med -> b < length med ->
  In x (swap med b j) <-> x = j \/ (In x med /\ x <> nth b med 0).
Proof.
  intros hnd hb. unfold swap.
  assert (e : med = firstn b med ++ nth b med 0 :: skipn (S b) med).
  { rewrite <- (firstn_skipn b med) at 1. f_equal. clear hnd. revert b hb.
    induction med as [|m med IH]; intros b hb; simpl in hb; [lia|]. destruct b; [reflexivity|]. cbn [skipn nth]. apply IH. lia. }
  rewrite e in hnd. pose proof (NoDup_remove_2 _ _ _ hnd) as h2.
  set (y := nth b med 0) in *. set (l1 := firstn b med) in *. set (l2 := skipn (S b) med) in *. rewrite e.
  rewrite !in_app_iff in *. cbn [In]. split.
  - intros [h|[<-|h]]; [right|auto|right]; (split; [tauto|intros ->; tauto]).
  - intros [->|[[h|[h|h]] hne]]; auto. congruence.
Qed.

(** different swaps lead to different sets *)
Lemma swaps_differ n k med b j b' j' : medoids n k med -> b < k -> b' < k -> ~ In j med -> ~ In j' med ->
  (b, j) <> (b', j') -> ~ same_set (swap med b j) (swap med b' j').
Proof.
  intros (h1 & h2 & h3) hb hb' hj hj' hne hs.
  assert (ej : j = j').
  { specialize (hs j). rewrite !in_swap in hs by (auto; lia). tauto. }
  subst j'. assert (hbb : b <> b') by congruence.
  pose proof (hs (nth b med 0)) as h. rewrite !in_swap in h by (auto; lia).
  assert (hin : In (nth b med 0) med) by (apply nth_In; lia).
  assert (hnb : nth b med 0 <> nth b' med 0).
  { intros e. apply hbb. apply (proj1 (NoDup_nth med 0) h2); auto; lia. }
  assert (hx : nth b med 0 = j \/ In (nth b med 0) med /\ nth b med 0 <> nth b med 0) by (apply h; auto).
  destruct hx as [hx|[_ hx]]; [|auto]. rewrite hx in hin. auto.
Qed.

Lemma swap_differs n k med b j : medoids n k med -> b < k -> ~ In j med -> ~ same_set (swap med b j) med.
Proof. intros (h1 & h2 & h3) hb hj hs. apply hj. apply hs. apply in_swap; auto. lia. Qed.

Lemma sets_swaps f n k e : sets_apart f n k e -> swaps_apart f n k e.
Proof.
  intros h med b j hm hb hj hjm. apply h; auto using medoids_swap. eapply swap_differs; eauto.
Qed.

(** two swaps with the same new object differ by one swap *)
Lemma swaps_apart_two f n k e med b c j : (forall x y, medoids n k x -> medoids n k y -> same_set x y -> (f x == f y)%Q) ->
  swaps_apart f n k e -> medoids n k med -> b < k -> c < k -> j < n -> ~ In j med -> b <> c ->
  (e < Qabs (f (swap med c j) - f (swap med b j)))%Q.
Proof.
  intros hf h hm hb hc hj hjm hbc. pose proof hm as (h1 & h2 & h3).
  set (m1 := swap med b j). set (y := nth b med 0).
  assert (hm1 : medoids n k m1) by (apply medoids_swap; auto).
  assert (hy : In y med) by (apply nth_In; lia).
  assert (hym1 : ~ In y m1).
  { unfold m1. rewrite in_swap by (auto; lia). intros [e1|[_ e1]]; [|apply e1; auto]. subst y. congruence. }
  specialize (h m1 c y hm1 hc (h3 y hy) hym1).
  assert (he : (f (swap m1 c y) == f (swap med c j))%Q).
  { apply hf; [apply medoids_swap; auto|apply medoids_swap; auto|].
    assert (en : nth c m1 0 = nth c med 0).
    { unfold m1. rewrite swap_set_nth by lia. apply nth_set_nth_neq. auto. }
    destruct hm1 as (k1 & k2 & k3).
    assert (hnb : nth b med 0 <> nth c med 0).
    { intros e'. apply hbc. apply (proj1 (NoDup_nth med 0) h2); auto; lia. }
    assert (hcm : In (nth c med 0) med) by (apply nth_In; lia).
    intros x. rewrite (in_swap _ _ k2) by lia. rewrite en. unfold m1. rewrite !in_swap by (auto; lia). fold y.
    fold y in hnb.
    destruct (Nat.eq_dec x y) as [->|hxy]; [tauto|]. destruct (Nat.eq_dec x j) as [->|hxj]; [|tauto].
    split; [auto|]. intros _. right. split; [auto|]. intros e'. apply hjm. rewrite e'. auto. }
  rewrite <- he. exact h.
Qed.

Lemma tdev_same_set v n a b : same_set a b -> (tdev v n a == tdev v n b)%Q.
Proof.
  intros h. destruct a as [|x a].
  - destruct b as [|y b]; [reflexivity|]. destruct (proj2 (h y)). simpl. auto.
  - destruct b as [|y b]; [destruct (proj1 (h x)); simpl; auto|].
    apply Qle_antisym; apply tdev_incl; try congruence; intros z hz; apply h; auto.
Qed.

(** ** the greedy initialization *)

(** another candidate *)
Lemma other_object a n x l : NoDup l -> length l + a + 1 < n -> exists y, a <= y < n /\ y <> x /\ ~ In y l.
Proof.
  intros hnd hl.
  destruct (Exists_dec (fun y => ~ In y (x :: l)) (seq a (n - a))) as [h|h].
  - intros y. destruct (in_dec Nat.eq_dec y (x :: l)); [right; tauto|left; auto].
  - apply Exists_exists in h as (y & h1 & h2). apply in_seq in h1. exists y. split; [lia|]. split.
    + intros ->. apply h2. simpl. auto.
    + intros hy. apply h2. simpl. auto.
  - exfalso. assert (hi : incl (seq a (n - a)) (x :: l)).
    { intros y hy. destruct (in_dec Nat.eq_dec y (x :: l)); [auto|]. exfalso. apply h. apply Exists_exists. exists y. auto. }
    apply NoDup_incl_length in hi; [|apply seq_NoDup]. rewrite seq_length in hi. cbn [length] in hi. lia.
Qed.

Lemma snoc_differ l x y : ~ In y l -> x <> y -> ~ same_set (l ++ [x]) (l ++ [y]).
Proof.
  intros hy hne h. specialize (h y). rewrite !in_app_iff in h. cbn [In] in h. destruct h as [_ h].
  destruct h as [h|[h|[]]]; auto.
Qed.

(** a choice which is greedy up to [e] is greedy when the total deviations are more than [e] apart *)
Lemma grow_sep v n a k meds e : dissimilarity n v -> (0 <= e)%Q -> 1 <= length meds <= k -> k + a < n ->
  medoids n (length meds) meds ->
  (forall i y, i < length meds -> y < n -> i = 0 \/ a <= y ->
     (tdev v n (firstn (S i) meds) <= tdev v n (firstn i meds ++ [y]) + e)%Q) ->
  (forall i, 1 <= i < length meds -> a <= nth i meds 0) ->
  (length meds = k \/ forall y, a <= y < n -> (tdev v n meds <= tdev v n (meds ++ [y]) + e)%Q) ->
  (forall i, 1 <= i <= k -> sets_apart (tdev v n) n i e) ->
  length meds = k /\ grow v n (seq a (n - a)) (k - 1) [best_next v n []] = meds.
Proof.
  intros Hv he hl hk (_ & hnd & hin) hg ha hstop hsep.
  assert (hfl : forall i, i <= length meds -> length (firstn i meds) = i) by (intros; apply firstn_length_le; auto).
  assert (hfS : forall i, i < length meds -> firstn (S i) meds = firstn i meds ++ [nth i meds 0]).
  { intros i hi. clear - hi. revert meds hi. induction i as [|i IH]; intros [|m meds] hi; simpl in hi; try lia; [reflexivity|].
    cbn [firstn nth List.app]. f_equal. rewrite <- IH by lia. reflexivity. }
  assert (hnth : forall i, i < length meds -> nth i meds 0 < n) by (intros; apply hin, nth_In; auto).
  assert (hfnd : forall i, NoDup (firstn i meds)).
  { intros i. rewrite <- (firstn_skipn i meds) in hnd. clear - hnd. induction (firstn i meds) as [|m l IH]; [constructor|].
    cbn [List.app] in hnd. inversion hnd as [|? ? h1 h2]; subst. constructor; [|auto]. intros h. apply h1, in_or_app. auto. }
  assert (hfin : forall i, inr n (firstn i meds)).
  { intros i m hm. apply hin. rewrite <- (firstn_skipn i meds). apply in_or_app. auto. }
  assert (hnew : forall i, i < length meds -> ~ In (nth i meds 0) (firstn i meds)).
  { intros i hi. pose proof (hfnd (S i)) as h. rewrite hfS in h by auto. apply NoDup_remove_2 in h. rewrite app_nil_r in h. exact h. }
  assert (hmed : forall i y, i < length meds -> y < n -> ~ In y (firstn i meds) -> medoids n (S i) (firstn i meds ++ [y])).
  { intros i y hi hy hyi. split; [rewrite app_length, hfl by lia; simpl; lia|]. split; [apply NoDup_snoc; auto|]. apply inr_app; auto. }
  (** the next medoid is strictly the best one *)
  assert (hbest : forall i y, i < length meds -> y < n -> i = 0 \/ a <= y -> ~ In y (firstn i meds) -> y <> nth i meds 0 ->
    (tdev v n (firstn (S i) meds) + e < tdev v n (firstn i meds ++ [y]))%Q).
  { intros i y hi hy h0 hyi hne. pose proof (hg i y hi hy h0) as hc.
    assert (hap : (e < Qabs (tdev v n (firstn i meds ++ [y]) - tdev v n (firstn i meds ++ [nth i meds 0%nat])))%Q).
    { apply (hsep (S i)); auto; [lia|]. apply snoc_differ; auto. }
    rewrite <- hfS in hap by auto. apply apart_ge in hap; lra. }
  assert (hfirst : best_next v n [] = nth 0 meds 0).
  { unfold best_next. assert (h0 : 0 < length meds) by lia.
    assert (he0 : firstn 1 meds = [nth 0 meds 0]) by (rewrite hfS by auto; reflexivity).
    assert (hb0 : forall y, y < n -> y <> nth 0 meds 0 -> (tdev v n [nth 0 meds 0%nat] < tdev v n [y])%Q).
    { intros y hy hne. specialize (hbest 0 y h0 hy (or_introl eq_refl) (fun h => h) hne). rewrite he0 in hbest. cbn [firstn List.app] in hbest. lra. }
    apply first_index with (f := fun y => tdev v n [y]); auto; cbn [List.app].
    - intros y hy. destruct (Nat.eq_dec y (nth 0 meds 0)) as [->|hne]; [lra|]. apply Qlt_le_weak; auto.
    - intros y hy. apply hb0; [specialize (hnth 0 h0); lia|lia]. }
  assert (hdown : forall i, 1 <= i < length meds -> (tdev v n (firstn (S i) meds) < tdev v n (firstn i meds))%Q).
  { intros i hi. destruct (@other_object a n (nth i meds 0) (firstn i meds)) as (y & h1 & h2 & h3); [auto|rewrite hfl; lia|].
    specialize (hbest i y (proj2 hi) (proj2 h1) (or_intror (proj1 h1)) h3 h2).
    assert (hle : (tdev v n (firstn i meds ++ [y]) <= tdev v n (firstn i meds))%Q).
    { apply tdev_incl; [|intros z hz; apply in_or_app; auto]. specialize (hfl i ltac:(lia)).
      destruct (firstn i meds); [simpl in hfl; lia|congruence]. }
    lra. }
  assert (hlen : length meds = k).
  { (** two further medoids would both be nearly as good as none *)
    destruct (Nat.eq_dec (length meds) k) as [|hlk]; [auto|]. exfalso. destruct hstop as [hstop|hstop]; [lia|].
    destruct (@other_object a n 0 meds) as (y & y1 & _ & y2); [auto|lia|].
    destruct (@other_object a n y meds) as (z & z1 & z2 & z3); [auto|lia|].
    assert (hup : forall x, (tdev v n (meds ++ [x]) <= tdev v n meds)%Q).
    { intros x. apply tdev_incl; [|intros w hw; apply in_or_app; auto]. destruct meds; [simpl in hl; lia|congruence]. }
    assert (hm : forall x, x < n -> ~ In x meds -> medoids n (S (length meds)) (meds ++ [x])).
    { intros x hx hx'. split; [rewrite app_length; simpl; lia|]. split; [apply NoDup_snoc; auto|]. apply inr_app; auto. }
    pose proof (hstop y y1) as q1. pose proof (hstop z z1) as q2. pose proof (hup y) as q3. pose proof (hup z) as q4.
    assert (hap : (e < Qabs (tdev v n (meds ++ [z]) - tdev v n (meds ++ [y])))%Q).
    { apply (hsep (S (length meds))); [lia|apply hm; auto; lia|apply hm; auto; lia|apply snoc_differ; auto]. }
    apply apart_ge in hap; lra. }
  assert (G : forall t i, 1 <= i <= length meds -> t + i = k -> grow v n (seq a (n - a)) t (firstn i meds) = meds).
  { induction t as [|t IH]; intros i hi hik.
    - cbn [grow]. apply firstn_all2. lia.
    - cbn [grow]. destruct (Nat.eq_dec i (length meds)) as [->|hne].
      + lia.
      + assert (hil : i < length meds) by lia. rewrite (@grow_some v n a (n - a) (firstn i meds) (nth i meds 0)).
        * rewrite <- hfS by auto. apply IH; lia.
        * specialize (ha i ltac:(lia)). specialize (hnth i hil). lia.
        * rewrite <- hfS by auto. apply hdown. lia.
        * intros y hy. rewrite <- hfS by auto. assert (hyn : y < n) by lia.
          pose proof (hdown i ltac:(lia)) as hd.
          destruct (in_dec Nat.eq_dec y (firstn i meds)) as [h|h].
          { rewrite (@tdev_same_set v n (firstn i meds ++ [y]) (firstn i meds)); [lra|].
            intros z. rewrite in_app_iff. cbn [In]. split; [intros [?|[<-|[]]]; auto|auto]. }
          destruct (Nat.eq_dec y (nth i meds 0)) as [->|hxy]; [rewrite <- hfS by auto; lra|].
          specialize (hbest i y hil hyn (or_intror (proj1 hy)) h hxy). lra.
        * intros y hy. rewrite <- hfS by auto. specialize (hnth i hil). assert (hyn : y < n) by lia.
          pose proof (hdown i ltac:(lia)) as hd.
          destruct (in_dec Nat.eq_dec y (firstn i meds)) as [h|h].
          { rewrite (@tdev_same_set v n (firstn i meds ++ [y]) (firstn i meds)); [lra|].
            intros z. rewrite in_app_iff. cbn [In]. split; [intros [?|[<-|[]]]; auto|auto]. }
          assert (hxy : y <> nth i meds 0) by lia.
          specialize (hbest i y hil hyn (or_intror (proj1 hy)) h hxy). lra. }
  split; [exact hlen|]. rewrite hfirst. specialize (G (k - 1) 1). rewrite (hfS 0) in G by lia. apply G; lia.
Qed.

Section Sep.
  Context {Nt : Type} `{HO : OrdLaws Nt} {Lt : Type} `{LF : LossFmt Lt} `{HFN : FromN Nt Lt}.
  Variables (M : Mat Nt) (n : nat) (D : nat -> nat -> Nt) (mx e : Q).
  Hypothesis HD : diss_matrix M n D.
  Hypothesis HE : exact_in (Lt := Lt) n D.
  Hypothesis Hmx : forall x y, x < n -> y < n -> (vals D x y <= mx)%Q.
  Hypothesis Hbig : (4 * FloatSil.cnt n * mx <= lbig)%Q.
  Hypothesis Hn : 1 <= n.
  Hypothesis Hn32 : (64 * FloatSil.cnt n * lunit <= 1)%Q.
  Hypothesis He : (eps (Lt := Lt) n mx <= e)%Q.
  Hypothesis Hz : lfrom (nzero : Nt) = (lzero : Lt).
  Notation v := (vals D).
  Notation err := (err (Lt := Lt) n mx).
  Let HM : is_matrix M n D := proj1 HD.

  Let herr : (4 * err <= e)%Q.
  Proof. pose proof (eps_err (Lt := Lt) n mx). lra. Qed.
  Let hep : (0 <= err)%Q := err_pos (Lt := Lt) HD Hmx Hn.

  (** ** fasterpam *)
  Record sep_good (k : nat) (s : fpst Nt Lt) : Prop := {
    sg_core : core n D mx k s;
    sg_nodup : NoDup (fp_med s);
    sg_own : data_own (fp_med s) (fp_data s)
  }.

  Lemma sg_medoids k s : sep_good k s -> medoids n k (fp_med s).
  Proof. intros [[[i1 i2 i3 i4] _ _] h _]. split; auto. Qed.

  (** what happens to a state when candidate [j] is considered, with changes evaluated up to an error of [E] *)
  Definition cand_sep (E : Q) (k : nat) (s : fpst Nt Lt) (j : nat) (c : ctl (fpst Nt Lt)) : Prop :=
    match c with
    | Break s' => s' = s /\ j = fp_last s
    | Next s' => sep_good k s' /\ fp_iter s' = fp_iter s /\ j <> fp_last s /\
        ((s' = s /\ no_gain n D E (fp_med s) j) \/
         (fp_last s' = j /\ fp_swaps s' = S (fp_swaps s) /\ ~ In j (fp_med s) /\
          exists ch b, slot_within n D E (fp_med s) j (ch, b) /\ (lval ch < 0)%Q /\ fp_med s' = swap (fp_med s) b j))
    end.

  Lemma fp_cand_sep k s j : 1 <= k -> j < n -> sep_good k s -> oks (fp_cand M s j) (cand_sep err k s j).
  Proof.
    intros hk hj hg. pose proof hg as [[g1 g2 g3] hnd hown]. pose proof g1 as [i1 i2 i3 i4].
    destruct (emb_vals HD) as [hemb hdg].
    eapply oks_mono; [apply (fp_cand_ok HM Hn hk hj g1)|].
    intros c hc.
    assert (hfb : forall change b, find_best_swap M (fp_rl s) (fp_data s) j = Ok (change, b) -> slot_within n D err (fp_med s) j (change, b)).
    { intros change b h.
      assert (hl : length (fp_rl s) = length (fp_med s)) by congruence.
      assert (hk' : 1 <= length (fp_med s)) by lia.
      pose proof (find_best_swap_near HD HE Hmx Hbig Hn Hn32 i2 i3 hl hk' hj g2) as hb.
      apply oks_elim with (2 := h) in hb. exact hb. }
    destruct hc as [e1|r a e1 e2 e3 e4|ch b e1 e2 e3|r a ch b data' rl' loss' e1 e2 e3 e4 e5 e6 e7 e8 e9].
    - split; auto.
    - split; [auto|]. split; [auto|]. split; [auto|]. left. split; [auto|].
      apply no_gain_medoid; [auto|]. rewrite <- e4. apply nth_In.
      destruct (rec2_near (proj2 i3 j r e2)) as (a' & ea & ha). congruence.
    - split; [auto|]. split; [auto|]. split; [auto|]. left. split; [auto|].
      intros c hc. destruct (hfb _ _ e2) as (b1 & b2 & b3 & b4). cbn [fst snd] in *.
      apply fmt_lleb in e3; [|exact fmt_zero|auto]. rewrite fmt_zero_val in e3. specialize (b4 c hc). lra.
    - pose proof (hfb _ _ e5) as hsl. pose proof hsl as (b1 & b2 & _ & _). cbn [fst snd] in b1, b2.
      apply fmt_lleb_false in e6; [|exact fmt_zero|auto]. rewrite fmt_zero_val in e6.
      assert (hjm : ~ In j (fp_med s)) by eauto using own_not_in.
      pose proof (fp_inv_swap HM (fp_iter s) (S (fp_swaps s)) j Hn hk hj g1 e7 e8 e9) as hi.
      pose proof (do_swap_ok (Lt := Lt) HM Hn i2 hj e7 i3) as hs1.
      apply oks_elim with (2 := e8) in hs1. destruct hs1 as (_ & s1 & s2 & s3 & s4).
      split; [|split; [auto|split; [auto|]]].
      + constructor; [constructor|..]; auto; cbn [fp_med fp_data fp_rl fp_loss].
        * assert (hl : length (fp_rl s) = length (set_nth (fp_med s) b j)) by (rewrite length_set_nth; congruence).
          pose proof (update_removal_loss_near HD HE Hmx Hbig Hn Hn32 (fp_rl s) (inr_set_nth b i2 hj) s1 hl) as hu.
          apply oks_elim with (2 := e9) in hu. apply hu.
        * apply near_sum_bracketed. rewrite <- s2. symmetry. apply near_sum0_near_sum; [auto|].
          intros q hq. rewrite (s3 q hq). auto.
        * apply NoDup_set_nth; auto.
        * eapply s4; eauto.
      + right. cbn [fp_med fp_last fp_swaps]. split; [auto|]. split; [auto|]. split; [auto|]. exists ch, b.
        split; [exact hsl|]. split; [exact e6|]. symmetry. apply swap_set_nth. auto.
  Qed.

  Lemma par_cand_sep orc k s j : oracle_ok orc -> 1 <= k -> j < n -> sep_good k s ->
    oks (par_cand M orc s j) (cand_sep (2 * err) k s j).
  Proof.
    intros hor hk hj hg. pose proof hg as [[[i1 i2 i3 i4] g2 g3] hnd hown]. destruct (emb_vals HD) as [hemb hdg].
    unfold par_cand. destruct (Nat.eqb_spec j (fp_last s)) as [e1|e1]; [cbn; auto|].
    destruct (nth_error_ex (fp_data s) (i := j)) as [r hr]; [destruct i3; lia|].
    rewrite (idx_some _ _ hr). cbn [bind].
    destruct (rec2_near (proj2 i3 j r hr)) as (a & ea & ha).
    rewrite ea. cbn [as_usize]. rewrite idx_nth with (d := 0%nat) by lia. cbn [bind].
    destruct (Nat.eqb_spec j (nth a (fp_med s) 0%nat)) as [e2|e2].
    { cbn [oks]. split; [auto|]. split; [auto|]. split; [auto|]. left. split; [auto|].
      apply no_gain_medoid; [lra|]. rewrite e2. apply nth_In. auto. }
    assert (hl : length (fp_rl s) = length (fp_med s)) by congruence.
    assert (hk' : 1 <= length (fp_med s)) by lia.
    pose proof (par_fbs_near HD HE Hmx Hbig Hn Hn32 i2 i3 hl hk' hj g2 (hor (fp_iter s) j)) as hf.
    apply oks_inv in hf as ([ch b] & -> & hsl). pose proof hsl as (b1 & b2 & [b3 b3'] & b4). cbn [bind fst snd] in *.
    destruct (lleb lzero ch) eqn:el.
    { cbn [oks]. split; [auto|]. split; [auto|]. split; [auto|]. left. split; [auto|].
      intros c hc'. apply fmt_lleb in el; [|exact fmt_zero|auto]. rewrite fmt_zero_val in el. specialize (b4 c hc'). lra. }
    apply fmt_lleb_false in el; [|exact fmt_zero|auto]. rewrite fmt_zero_val in el.
    assert (hjm : ~ In j (fp_med s)) by (eapply own_not_in; eauto).
    destruct (par_swap_data HD (o_swap orc (fp_iter s) j) Hn i2 hj b1 i3) as (data' & loss & loss' & e' & -> & hls).
    cbn [bind].
    pose proof (do_swap_ok (Lt := Lt) HM Hn i2 hj b1 i3) as hs. apply oks_elim with (2 := e') in hs.
    destruct hs as (_ & s1 & _ & _ & s4).
    assert (hl' : length (fp_rl s) = length (set_nth (fp_med s) b j)) by (rewrite length_set_nth; congruence).
    pose proof (update_removal_loss_near HD HE Hmx Hbig Hn Hn32 (fp_rl s) (inr_set_nth b i2 hj) s1 hl') as hu.
    apply oks_inv in hu as (rl' & -> & hu1 & hu2). cbn [bind oks]. rewrite length_set_nth in hu1.
    split; [|split; [auto|split; [auto|]]].
    - constructor; [constructor|..]; cbn [fp_med fp_data fp_rl fp_loss]; auto.
      + constructor; cbn [fp_med fp_data fp_rl]; auto; [rewrite length_set_nth; auto|apply inr_set_nth; auto|lia].
      + apply treduce_bracketed with (o_swap orc (fp_iter s) j). apply hls. exact Hz.
      + apply NoDup_set_nth; auto.
      + eapply s4; eauto.
    - right. cbn [fp_med fp_last fp_swaps]. split; [auto|]. split; [auto|]. split; [auto|]. exists ch, b.
      split; [exact hsl|]. split; [exact el|]. symmetry. apply swap_set_nth. auto.
  Qed.

  Lemma sep_loss k s : sep_good k s -> lfin (fp_loss s) /\ lclose err (tdev v n (fp_med s)) (fp_loss s).
  Proof.
    intros [[[i1 i2 i3 i4] _ hb] _ _]. destruct (bracketed_close HD HE Hmx Hbig Hn Hn32 i2 i3 hb) as [h1 h2].
    split; [auto|]. eapply lclose_le; [|exact h2]. pose proof (lerr_err (Lt := Lt) n mx). lra.
  Qed.

  (** what the run returns *)
  Definition eager_result (order med : list nat) (maxiter : nat) (r : pam_result Lt) : Prop :=
    (r_med r, r_swaps r, r_iter r) = eager_swaps (dev_better v n) order med maxiter /\
    off_in e (tdev v n (r_med r)) (r_loss r) /\ medoids n (length med) (r_med r) /\
    (r_iter r < maxiter -> forall b j, b < length med -> In j order ->
       (tdev v n (r_med r) <= tdev v n (swap (r_med r) b j))%Q).

  Lemma eager_sep order med maxiter (run : res (pam_result Lt)) cand E data rl loss :
    sizes n (length med) -> NoDup order -> (forall j, In j order -> j < n) ->
    (E <= 2 * err)%Q -> swaps_apart (tdev v n) n (length med) e ->
    (forall s j, j < n -> sep_good (length med) s -> oks (cand s j) (cand_sep E (length med) s j)) ->
    sep_good (length med) (mkFp med data rl loss n 0 0) ->
    run = bind (whileM maxiter (pass cand order) (mkFp med data rl loss n 0 0))
      (fun st => Ok (mkPR (fp_loss st) (assignment_of (fp_data st)) (fp_iter st) (fp_swaps st) (fp_med st))) ->
    exists r, run = Ok r /\ eager_result order med maxiter r.
  Proof.
    intros hs hnd ho hE hsep hcand hg0 ->. set (k := length med) in *.
    assert (hk : 1 <= k) by (destruct hs; lia).
    set (st0 := mkFp med data rl loss n 0 0) in *.
    assert (h : oks (whileM maxiter (pass cand order) st0)
      (first_result order (@fp_swaps Nt Lt) (@fp_iter Nt Lt) (fun st => lval (fp_loss st)) (sep_good k) (fp_nonimp n D)
        (fun st => better (tdev v n) n k (fp_med st)) (@fp_med Nt Lt) (dev_try n D)
        (fun st => mkFp (fp_med st) (fp_data st) (fp_rl st) (fp_loss st) (fp_last st) (fp_swaps st) (S (fp_iter st))) maxiter st0)).
    { apply first_improvement with (last := @fp_last Nt Lt) (cand := cand)
        (stop := fun st st' => lleb (fp_loss st) (fp_loss st')); auto.
      - intros st hg. split; [destruct hg as [[[] ? ?] ? ?]; constructor; auto; constructor; auto; constructor; auto|]. cbn. auto 10.
      - intros st st' hg hg' hlt. destruct (lleb (fp_loss st) (fp_loss st')) eqn:el; auto.
        apply fmt_lleb in el; [lra|apply (sep_loss hg)|apply (sep_loss hg')].
      - intros st j hg hj hni. apply eager_none with (f := tdev v n); auto.
      - intros st j hg hj. specialize (ho j hj). pose proof (sg_medoids hg) as hm. pose proof hm as (m1 & m2 & m3).
        eapply oks_mono; [apply (hcand st j ho hg)|]. intros [s|s]; [|auto].
        intros (q1 & q2 & q3 & q4). split; [auto|]. split; [auto|]. split; [auto|].
        destruct q4 as [[-> q4]|(q4 & q5 & hjm & ch & b & hsl & hlt & em)].
        + left. split; [auto|]. intros b hb. rewrite m1 in hb. specialize (q4 b). rewrite m1 in q4. specialize (q4 hb).
          unfold delta in q4. destruct (in_dec Nat.eq_dec j (fp_med st)) as [hin|hin].
          * apply tdev_swap_medoid; [lia|auto].
          * pose proof (hsep _ b j hm hb ho hin) as ha. apply apart_ge in ha; lra.
        + right. destruct hsl as (b1 & b2 & [b3 b3'] & b4). cbn [fst snd] in *. rewrite m1 in b1, b4. unfold delta in b3, b3', b4.
          assert (hgain : (tdev v n (swap (fp_med st) b j) < tdev v n (fp_med st) - e)%Q).
          { pose proof (hsep _ b j hm b1 ho hjm) as ha. apply apart_le in ha; lra. }
          assert (hbest : forall c, c < k -> c <> b -> (tdev v n (swap (fp_med st) b j) < tdev v n (swap (fp_med st) c j))%Q).
          { intros c hc hne. specialize (b4 c hc).
            assert (hbc : b <> c) by congruence.
            pose proof (@swaps_apart_two (tdev v n) n k e (fp_med st) b c j (fun x y _ _ h => @tdev_same_set v n x y h) hsep hm b1 hc ho hjm hbc) as ha.
            apply apart_ge in ha; lra. }
          pose proof (sep_loss hg) as [_ [l1 l2]]. pose proof (sep_loss q1) as [_ [l3 l4]]. rewrite em in l3, l4.
          split; [lra|]. split.
          { rewrite em. apply better_lt; [rewrite length_swap; lia| |lra].
            destruct (medoids_swap hm b1 ho hjm) as (_ & _ & h). exact h. }
          split; [auto|]. split; [auto|]. split.
          { intros c hc. apply tdev_swap_medoid; auto. rewrite em. apply in_swap; auto. lia. }
          split.
          { intros hni. specialize (hni b ltac:(lia)). lra. }
          rewrite em. unfold dev_try. apply eager_some with (f := tdev v n); auto; [lia|lra| |].
          * intros c hc. destruct (Nat.eq_dec c b) as [->|hne]; [lra|]. apply Qlt_le_weak, hbest; lia.
          * intros c hc. apply hbest; lia.
      - intros hin. apply ho in hin. unfold st0 in hin. simpl in hin. lia. }
    apply oks_inv in h as (st & -> & h). cbn [bind]. eexists. split; [reflexivity|].
    destruct h as [h1 h2 h3 h4 h5 h6 h7 h8 h9 h10 h11]. unfold eager_result. cbn [r_med r_swaps r_iter r_loss].
    split; [exact h11|]. pose proof (sg_medoids h1) as hm1. split; [|split; [exact hm1|]].
    2:{ intros hlt b j hb hj. apply (h8 hlt j hj). rewrite (proj1 hm1). exact hb. }
    destruct (sep_loss h1) as [_ [l1 l2]]. apply Qabs_Qle_condition. lra.
  Qed.

  Lemma rand_fasterpam_sep order med maxiter : sizes n (length med) -> medoids n (length med) med -> 2 <= length med ->
    NoDup order -> (forall j, In j order -> j < n) -> swaps_apart (tdev v n) n (length med) e ->
    exists r, rand_fasterpam (Lt := Lt) M order med maxiter = Ok r /\ eager_result order med maxiter r.
  Proof.
    intros hs (_ & hndm & hin) hk hnd ho hsep. destruct (emb_vals HD) as [hemb hdg].
    pose proof (initial_assignment_ok (Lt := Lt) HM hs hin hk) as h.
    apply oks_inv in h as ([loss data] & ei & hd & hsum & hown). cbn [fst snd] in *.
    pose proof (update_removal_loss_near HD HE Hmx Hbig Hn Hn32 _ hin hd (repeat_length (lzero : Lt) (length med))) as h.
    apply oks_inv in h as (rl & er & hrl & hrn).
    apply eager_sep with (cand := fp_cand M) (E := err) (data := data) (rl := rl) (loss := loss); auto; [lra| | |].
    - intros s j hj hg. apply fp_cand_sep; auto. lia.
    - constructor; [constructor; [constructor|..]|..]; cbn [fp_med fp_data fp_rl fp_loss]; eauto.
      apply near_sum_bracketed. exact hsum.
    - unfold rand_fasterpam, fasterpam_order.
      replace (length med =? 1) with false by (symmetry; apply Nat.eqb_neq; lia).
      rewrite ei. cbn [bind]. rewrite er. cbn [bind]. rewrite (len_n HM). reflexivity.
  Qed.

  Lemma par_fasterpam_sep orc order med maxiter : sizes n (length med) -> medoids n (length med) med -> 2 <= length med ->
    NoDup order -> (forall j, In j order -> j < n) -> oracle_ok orc -> swaps_apart (tdev v n) n (length med) e ->
    exists r, par_fasterpam (Lt := Lt) M orc order med maxiter = Ok r /\ eager_result order med maxiter r.
  Proof.
    intros hs (_ & hndm & hin) hk hnd ho hor hsep. destruct (emb_vals HD) as [hemb hdg].
    destruct (par_initial_data (Lt := Lt) HD (o_init orc) hs hin hk) as (loss & loss' & data & e1 & e' & hls).
    pose proof (initial_assignment_ok (Lt := Lt) HM hs hin hk) as h. apply oks_elim with (2 := e1) in h.
    destruct h as (hd & _ & hown). cbn [snd] in *.
    pose proof (update_removal_loss_near HD HE Hmx Hbig Hn Hn32 _ hin hd (repeat_length (lzero : Lt) (length med))) as h.
    apply oks_inv in h as (rl & er & hrl & hrn).
    apply eager_sep with (cand := par_cand M orc) (E := (2 * err)%Q) (data := data) (rl := rl) (loss := loss'); auto; [lra| | |].
    - intros s j hj hg. apply par_cand_sep; auto. lia.
    - constructor; [constructor; [constructor|..]|..]; cbn [fp_med fp_data fp_rl fp_loss]; eauto.
      apply treduce_bracketed with (o_init orc). exact hls.
    - unfold par_fasterpam. replace (length med =? 1) with false by (symmetry; apply Nat.eqb_neq; lia).
      rewrite e'. cbn [bind]. rewrite er. cbn [bind]. rewrite (len_n HM). reflexivity.
  Qed.

  (** ** fastpam1 and the swap phase of PAM *)
  Definition steep_good (k : nat) (s : pst Nt Lt) : Prop := pf_inv n D k s /\ FloatSwap.near_loss n D mx s.

  Lemma stg_medoids k s : steep_good k s -> medoids n k (p_med s).
  Proof. intros [[[i1 i2 i3] h2 h3] _]. split; auto. Qed.

  Definition steep_sep (k : nat) (st : pst Nt Lt) (c : ctl (pst Nt Lt)) : Prop :=
    match c with
    | Break s => steep_good k s /\ p_med s = p_med st /\ p_loss s = p_loss st /\ p_swaps s = p_swaps st /\ p_iter s = p_iter st /\
                 dev_best n D (p_med st) = None /\ swap_optimal v n (p_med st)
    | Next s => steep_good k s /\ (lval (p_loss s) < lval (p_loss st))%Q /\ (tdev v n (p_med s) < tdev v n (p_med st))%Q /\
                p_swaps s = S (p_swaps st) /\ p_iter s = p_iter st /\ dev_best n D (p_med st) = Some (p_med s)
    end.

  Lemma swap_best_sep k (st : pst Nt Lt) rl best :
    sets_apart (tdev v n) n k e -> steep_good k st -> best_new n st best -> best_near n D mx (p_med st) n best ->
    oks (swap_best M st rl best) (fun c => p_rl (match c with Next s => s | Break s => s end) = rl /\ steep_sep k st c).
  Proof.
    intros hsep hg hnew (b1 & b2 & b3 & b4). pose proof (stg_medoids hg) as hm. pose proof hm as (m1 & m2 & m3).
    pose proof hg as [[[i1 i2 i3] hnd hown] [lf [l1 l2]]]. destruct (emb_vals HD) as [hemb hdg].
    pose proof (sets_swaps hsep) as hsw. unfold swap_best.
    destruct (lltb (fst best) lzero) eqn:el.
    - apply fmt_lltb in el; [|auto|exact fmt_zero]. rewrite fmt_zero_val in el.
      unfold best_new in hnew. destruct (snd best) as [[b j]|] eqn:es; [|lra].
      destruct hnew as (hb & hj & hjm). rewrite m1 in hb. destruct b3 as [b3 b3']. unfold delta in b3, b3', b4.
      assert (hgain : (tdev v n (swap (p_med st) b j) < tdev v n (p_med st) - e)%Q).
      { pose proof (hsw _ b j hm hb hj hjm) as ha. apply apart_le in ha; lra. }
      assert (hbest : forall j' c, j' < n -> c < k -> ~ In j' (p_med st) -> (c, j') <> (b, j) ->
        (tdev v n (swap (p_med st) b j) < tdev v n (swap (p_med st) c j'))%Q).
      { intros j' c hj' hc hjm' hne. specialize (b4 j' c hj' ltac:(lia)).
        assert (ha : (e < Qabs (tdev v n (swap (p_med st) c j') - tdev v n (swap (p_med st) b j)))%Q).
        { apply hsep; auto using medoids_swap. eapply swaps_differ; eauto. }
        apply apart_ge in ha; lra. }
      pose proof (do_swap_ok (Lt := Lt) HM Hn i2 hj ltac:(rewrite m1; exact hb) i3) as hs.
      apply oks_inv in hs as ([[med' data'] loss'] & -> & -> & hd & s2 & s3 & s4). cbn [bind].
      assert (hs' : near_sum data' = Some loss').
      { rewrite <- s2. symmetry. apply near_sum0_near_sum; auto. intros r hr. rewrite (s3 r hr). auto. }
      assert (hi' : pf_inv n D k (mkP (set_nth (p_med st) b j) data' rl loss' (S (p_swaps st)) (p_iter st))).
      { constructor; cbn [p_med p_data].
        - constructor; cbn [p_med p_data]; auto; [rewrite length_set_nth; auto|apply inr_set_nth; auto].
        - apply NoDup_set_nth; auto.
        - eapply s4; eauto. }
      pose proof (near_sum_loss HD HE Hmx Hbig Hn Hn32 (pf_p hi') hs') as hl'.
      pose proof hl' as [lf' [l3 l4]]. cbn [p_loss p_med] in lf', l3, l4. rewrite <- swap_set_nth in l3, l4 by lia.
      assert (hlt : (lval loss' < lval (p_loss st))%Q) by lra.
      destruct (lleb (p_loss st) loss') eqn:e2; [apply fmt_lleb in e2; auto; lra|].
      cbn [oks p_rl steep_sep p_loss p_med p_swaps p_iter]. split; [auto|].
      split; [split; auto|]. split; [auto|]. rewrite <- swap_set_nth by lia. split; [lra|]. split; [auto|]. split; [auto|].
      apply steep_some with (f := tdev v n); auto; [lia|lra| | |].
      + intros j' c hj' hjm' hc. destruct (Nat.eq_dec j' j) as [->|hne]; [destruct (Nat.eq_dec c b) as [->|hne]; [lra|]|];
          apply Qlt_le_weak, hbest; auto; try lia; congruence.
      + intros j' c hj' hjm' hc. apply hbest; auto; try lia. intros h. injection h. lia.
      + intros c hc. apply hbest; auto; try lia. intros h. injection h. lia.
    - apply fmt_lltb_false in el; [|auto|exact fmt_zero]. rewrite fmt_zero_val in el.
      cbn [oks p_rl steep_sep p_loss p_med p_swaps p_iter]. split; [auto|].
      split; [split; [constructor; auto; constructor; auto|split; auto; split; auto]|].
      do 4 (split; [auto|]).
      assert (hno : forall b j, b < length (p_med st) -> j < n -> ~ In j (p_med st) ->
        (tdev v n (p_med st) <= tdev v n (swap (p_med st) b j))%Q).
      { intros b j hb hj hjm. specialize (b4 j b hj hb). unfold delta in b4. rewrite m1 in hb.
        pose proof (hsw _ b j hm hb hj hjm) as ha. apply apart_ge in ha; lra. }
      split; [apply steep_none with (f := tdev v n); auto|]. intros b j hb hj.
      destruct (in_dec Nat.eq_dec j (p_med st)) as [hin|hin]; [apply tdev_swap_medoid; auto|auto].
  Qed.

  Definition steep_ref (med : list nat) (maxiter : nat) (r : pam_result Lt) : Prop :=
    (r_med r, r_swaps r, r_iter r) = best_swaps (dev_better v n) n med maxiter /\
    off_in e (tdev v n (r_med r)) (r_loss r) /\ medoids n (length med) (r_med r) /\
    (r_iter r < maxiter -> swap_optimal v n (r_med r)).

  Lemma steep_run_sep med maxiter body (good : pst Nt Lt -> Prop) st0 : let k := length med in
    (forall s, good s -> steep_good k s) ->
    (forall s, good s -> oks (body s) (fun c => good (match c with Next s => s | Break s => s end) /\ steep_sep k (inc_iter s) c)) ->
    good st0 -> p_med st0 = med -> p_swaps st0 = 0 -> p_iter st0 = 0 ->
    exists st, whileM maxiter body st0 = Ok st /\
      steep_ref med maxiter (mkPR (p_loss st) (assignment_of (p_data st)) (p_iter st) (p_swaps st) (p_med st)).
  Proof.
    intros k hgood hbody hg0 hm0 hs0 hi0.
    assert (h : oks (whileM maxiter body st0) (steep_result (@p_swaps Nt Lt) (@p_iter Nt Lt) (fun st => lval (p_loss st)) good
      (fun st => swap_optimal v n (p_med st)) (fun st => better (tdev v n) n k (p_med st)) (@p_med Nt Lt) (dev_best n D) maxiter st0)).
    { apply steepest; auto. intros s hg. eapply oks_mono; [apply hbody; auto|]. intros [s'|s'] [g1 g2].
      - destruct g2 as (q1 & q2 & q3 & q4 & q5 & q6). cbn [inc_iter p_med p_loss p_swaps p_iter] in *.
        split; [auto|]. split; [auto|]. split; [|auto]. destruct (stg_medoids q1) as (a1 & a2 & a3). apply better_lt; auto.
      - destruct g2 as (q1 & q2 & q3 & q4 & q5 & q6 & q7). cbn [inc_iter p_med p_loss p_swaps p_iter] in *.
        rewrite q2, q3. auto 10. }
    apply oks_inv in h as (st & -> & h). exists st. split; [reflexivity|].
    destruct h as [h1 h2 h3 h4 h5 h6 h7 h8]. unfold steep_ref. cbn [r_med r_swaps r_iter r_loss]. rewrite hm0 in h8.
    split; [exact h8|]. pose proof (hgood st h1) as hg. split; [|split; [apply stg_medoids; exact hg|]].
    2:{ intros hlt. destruct h7 as [[_ h7]|[_ h7]]; [exact h7|lia]. }
    destruct hg as [_ [_ [l1 l2]]]. apply Qabs_Qle_condition. lra.
  Qed.

  Lemma fastpam1_iteration_sep k (st : pst Nt Lt) : 1 <= k -> sets_apart (tdev v n) n k e ->
    steep_good k st -> length (p_rl st) = k ->
    oks (fastpam1_iteration M st) (fun c => length (p_rl (match c with Next s => s | Break s => s end)) = k /\ steep_sep k (inc_iter st) c).
  Proof.
    intros hk hsep hg hl. unfold fastpam1_iteration. fold (inc_iter st).
    pose proof hg as [[[i1 i2 i3] hnd hown] hnl].
    assert (hp1 : pf_inv n D k (inc_iter st)) by (constructor; auto; constructor; auto).
    assert (hg1 : steep_good k (inc_iter st)) by (split; auto).
    assert (hu : oks (update_removal_loss (p_data st) (p_rl st)) (fun rl => length rl = length (p_med st) /\ rl_near n mx (p_data st) rl)).
    { apply (update_removal_loss_near HD HE Hmx Hbig Hn Hn32); auto. congruence. }
    apply oks_inv in hu as (rl & er & hrl & hrn). cbn [inc_iter p_data p_rl p_med]. rewrite er. cbn [bind].
    eapply oks_bind with (P := fun best => best_new n (inc_iter st) best /\ best_near n D mx (p_med st) n best).
    - rewrite (len_n HM). apply foldM_seq with (I := fun t best => best_new n (inc_iter st) best /\ best_near n D mx (p_med st) t best).
      + split; [reflexivity|apply (best_near_0 (Lt := Lt) D mx Hn)].
      + intros j best hj [h1 h2]. apply oks_and.
        * apply (fastpam1_cand_new HD) with (k := k) (st := inc_iter st); auto; lia.
        * apply (fastpam1_cand_near HD HE Hmx Hbig Hn Hn32) with (k := k) (st := inc_iter st); auto; [apply hp1|lia].
    - intros best [h1 h2]. eapply oks_mono; [apply (swap_best_sep rl hsep hg1 h1 h2)|].
      intros [s|s] [q1 q2]; (split; [rewrite q1; congruence|exact q2]).
  Qed.

  Lemma pam_iteration_sep k (st : pst Nt Lt) : sets_apart (tdev v n) n k e -> steep_good k st ->
    oks (pam_iteration M st) (steep_sep k (inc_iter st)).
  Proof.
    intros hsep hg. unfold pam_iteration. fold (inc_iter st).
    pose proof hg as [[[i1 i2 i3] hnd hown] hnl].
    assert (hp1 : pf_inv n D k (inc_iter st)) by (constructor; auto; constructor; auto).
    assert (hg1 : steep_good k (inc_iter st)) by (split; auto).
    eapply oks_bind with (P := fun best => best_new n (inc_iter st) best /\ best_near n D mx (p_med st) n best).
    - rewrite (len_n HM). apply foldM_seq with (I := fun t best => best_new n (inc_iter st) best /\ best_near n D mx (p_med st) t best).
      + split; [reflexivity|apply (best_near_0 (Lt := Lt) D mx Hn)].
      + intros j best hj [h1 h2]. apply oks_and.
        * apply (pam_cand_new HD) with (k := k) (st := inc_iter st); auto; lia.
        * apply (pam_cand_near HD HE Hmx Hbig Hn Hn32) with (k := k) (st := inc_iter st); auto. apply hp1.
    - intros best [h1 h2]. eapply oks_mono; [apply (swap_best_sep _ hsep hg1 h1 h2)|].
      intros [s|s] [q1 q2]; exact q2.
  Qed.

  Lemma fastpam1_pam_sep med maxiter : sizes n (length med) -> medoids n (length med) med -> 2 <= length med ->
    sets_apart (tdev v n) n (length med) e ->
    (exists r, fastpam1 (Lt := Lt) M med maxiter = Ok r /\ steep_ref med maxiter r) /\
    (exists r, pam_swap (Lt := Lt) M med maxiter = Ok r /\ steep_ref med maxiter r).
  Proof.
    intros hs (_ & hndm & hin) hk hsep. destruct (emb_vals HD) as [hemb hdg].
    pose proof (initial_assignment_ok (Lt := Lt) HM hs hin hk) as h.
    apply oks_inv in h as ([loss data] & ei & hd & hsum & hown). cbn [fst snd] in *.
    assert (hi : forall rl, steep_good (length med) (mkP med data rl loss 0 0)).
    { intros rl. assert (hp : pf_inv n D (length med) (mkP med data rl loss 0 0)) by (constructor; cbn [p_med p_data]; eauto; constructor; auto).
      split; [exact hp|]. eapply (near_sum_loss HD HE Hmx Hbig Hn Hn32); [apply hp|exact hsum]. }
    assert (hk1 : (length med =? 1) = false) by (apply Nat.eqb_neq; lia).
    split.
    - destruct (@steep_run_sep med maxiter (fastpam1_iteration M) (fun s => steep_good (length med) s /\ length (p_rl s) = length med)
        (mkP med data (repeat lzero (length med)) loss 0 0)) as (st & e1 & h); auto.
      + intros s [h _]. exact h.
      + intros s [h1 h2]. eapply oks_mono; [apply fastpam1_iteration_sep with (k := length med); auto; lia|].
        intros [s'|s'] [q1 q2]; (split; [split; [apply q2|exact q1]|exact q2]).
      + split; [apply hi|apply repeat_length].
      + eexists. split; [unfold fastpam1; rewrite hk1, ei; cbn [bind]; rewrite e1; reflexivity|exact h].
    - destruct (@steep_run_sep med maxiter (pam_iteration M) (steep_good (length med)) (mkP med data [] loss 0 0)) as (st & e1 & h); auto.
      + intros s h1. eapply oks_mono; [apply pam_iteration_sep; eauto|].
        intros [s'|s'] q2; (split; [apply q2|exact q2]).
      + eexists. split; [unfold pam_swap; rewrite ei; cbn [bind]; unfold pam_optimize; rewrite hk1, e1; reflexivity|exact h].
  Qed.

  (** ** BUILD and pam *)
  Definition greedy_meds (k : nat) : list nat := grow v n (seq 0 n) (k - 1) [best_next v n []].

  Lemma build_near_sep k l st : 1 <= l <= k -> k < n -> build_near M n D mx l st ->
    l = k \/ (tdev v n (b_meds st) == 0)%Q -> (forall i, 1 <= i <= k -> sets_apart (tdev v n) n i e) ->
    l = k /\ b_meds st = greedy_meds k.
  Proof.
    intros hl hk [h1 h2 h3 h4 h5 h6 h7] hz hsep. unfold greedy_meds. pose proof (v_diss HD) as Hv.
    replace (seq 0 n) with (seq 0 (n - 0)) by (f_equal; lia).
    assert (g : length (b_meds st) = k /\ grow v n (seq 0 (n - 0)) (k - 1) [best_next v n []] = b_meds st); [|split; [lia|symmetry; apply g]].
    apply grow_sep with (e := e); auto; try lia.
    - lra.
    - split; auto.
    - intros i y hi hy _. specialize (h7 i y hi hy). lra.
    - destruct hz as [hz|hz]; [left; lia|right]. intros y hy. rewrite hz.
      assert (h0 : (0 <= tdev v n (b_meds st ++ [y]))%Q); [|lra].
      apply sumQ_nonneg. intros o ho. apply in_seq in ho. apply mindist_nonneg with n; auto; [lia|]. apply inr_app; auto. lia.
  Qed.

  Lemma pam_build_sep k : sizes n k -> k < n -> (forall i, 1 <= i <= k -> sets_apart (tdev v n) n i e) ->
    length (greedy_meds k) = k /\
    exists (loss : Lt) assi, pam_build M k = Ok (loss, assi, greedy_meds k) /\ off_in e (tdev v n (greedy_meds k)) loss.
  Proof.
    intros hs hkn hsep. assert (hk : 1 <= k) by (destruct hs; lia).
    pose proof (pam_build_near HD HE Hmx Hbig Hn Hn32 hk) as h. apply oks_inv in h as (st & ebb & l & hl & hg & hzero).
    destruct (build_near_sep hl hkn hg hzero hsep) as [-> em]. destruct hg as [h1 h2 h3 h4 h5 h6 h7].
    split; [rewrite <- em; exact h1|]. exists (b_loss st), (assignment_of (b_data st)). rewrite <- em.
    split; [unfold pam_build; rewrite (check_input_ok (proj1 HD) hs); cbn [bind]; rewrite ebb; reflexivity|].
    apply (close_2n HD Hmx Hn) in h6 as [_ [l1 l2]]. apply Qabs_Qle_condition. lra.
  Qed.

  Lemma pam_sep k maxiter : sizes n k -> k < n -> (forall i, 1 <= i <= k -> sets_apart (tdev v n) n i e) ->
    2 <= k ->
    exists r, pam (Lt := Lt) M k maxiter = Ok r /\ steep_ref (greedy_meds k) maxiter r.
  Proof.
    intros hs hkn hsep hk2. assert (hk : 1 <= k) by (destruct hs; lia).
    pose proof (pam_build_near HD HE Hmx Hbig Hn Hn32 hk) as h. apply oks_inv in h as (st & ebb & l & hl & hg & hzero).
    destruct (build_near_sep hl hkn hg hzero hsep) as [-> em]. rewrite <- em in *.
    pose proof (bn_len hg) as hlen.
    pose proof (build_pf HD Hn hk2 hg) as hpf. pose proof (bn_loss hg) as h6.
    apply (close_2n HD Hmx Hn) in h6 as [lf [l1 l2]].
    assert (hnl : FloatSwap.near_loss n D mx (mkP (b_meds st) (b_data st) [] (b_loss st) 0 0)) by (split; [exact lf|split; [exact l1|exact l2]]).
    destruct (@steep_run_sep (b_meds st) maxiter (pam_iteration M) (steep_good k) (mkP (b_meds st) (b_data st) [] (b_loss st) 0 0)) as (s & e1 & h); auto.
    - rewrite hlen. auto.
    - rewrite hlen. intros s h1. eapply oks_mono; [apply pam_iteration_sep; eauto|].
      intros [s'|s'] q2; (split; [apply q2|exact q2]).
    - split; auto.
    - eexists. split; [|exact h]. unfold pam. rewrite (check_input_ok (proj1 HD) hs). cbn [bind]. rewrite ebb. cbn [bind].
      unfold pam_optimize. replace (length (b_meds st) =? 1) with false by (symmetry; apply Nat.eqb_neq; lia).
      rewrite e1. reflexivity.
  Qed.
End Sep.
