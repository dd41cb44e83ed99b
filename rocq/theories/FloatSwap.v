(** FloatSwap.v -- rounding: how far the evaluated loss changes of swaps are from the exact ones, for losses
    in any format of FloatFmt.v *)
From Coq Require Import ZArith QArith Qpower Lqa Lia.
From Coq.Floats Require Import SpecFloat.
From Verif Require Import Base Num M_Mat M_Util M_Fasterpam M_Pam Inst Hoare Spec SpecFacts Laws FloatFacts FloatExact
  FloatRound PamShape PamExact PamFacts FloatSil FloatLoss FloatMain FloatFmt.
Set Implicit Arguments.
Open Scope Q_scope.

(** ** the states reached by iterations which continue *)
Inductive reach S (body : S -> res (ctl S)) (s0 : S) : nat -> S -> Prop :=
| reach_0 : reach body s0 0 s0
| reach_S i s s' : reach body s0 i s -> body s = Ok (Next s') -> reach body s0 (Datatypes.S i) s'.

Lemma reach_while S (body : S -> res (ctl S)) s0 i s : reach body s0 i s ->
  forall f, whileM (i + f) body s0 = whileM f body s.
Proof.
  induction 1 as [|i s s' h IH e]; intros f; [reflexivity|].
  replace (Datatypes.S i + f)%nat with (i + Datatypes.S f)%nat by lia. rewrite IH. cbn [whileM]. rewrite e. reflexivity.
Qed.

Section Swap.
  Context {Nt : Type} `{HO : OrdLaws Nt} {Lt : Type} `{LF : LossFmt Lt} `{HFN : FromN Nt Lt}.
  Variable M : Mat Nt.
  Variable n : nat.
  Variable D : nat -> nat -> Nt.
  Hypothesis HD : diss_matrix M n D.
  Hypothesis HE : exact_in n D.
  (** [mx] bounds the dissimilarities *)
  Variable mx : Q.
  Hypothesis Hmx : forall x y, (x < n)%nat -> (y < n)%nat -> vals D x y <= mx.
  Hypothesis Hbig : 4 * cnt n * mx <= lbig.
  Hypothesis Hn : (1 <= n)%nat.
  Hypothesis Hn32 : 64 * cnt n * lunit <= 1.
  Notation v := (vals D).
  Let HM : is_matrix M n D := proj1 HD.
  Let Hemb : Emb n D v := proj1 (emb_vals HD).

  Lemma v_pos x y : (x < n)%nat -> (y < n)%nat -> 0 <= v x y.
  Proof. intros hx hy. apply (emb_pos Hemb); auto. Qed.
  Lemma mx_pos : 0 <= mx.
  Proof. pose proof (@v_pos 0 0 ltac:(lia) ltac:(lia)). pose proof (Hmx (x := 0) (y := 0) ltac:(lia) ltac:(lia)). lra. Qed.

  (** all numbers occurring are at most [4 n mx], so an operation has an error of at most [dlt] *)
  Definition dlt : Q := lunit * (4 * cnt n * mx).

  Lemma n1 : 1 <= cnt n.
  Proof. change 1 with (cnt 1). apply cnt_le. exact Hn. Qed.
  Lemma nmx_pos : 0 <= cnt n * mx.
  Proof. pose proof mx_pos. pose proof n1. apply Qmult_le_0_compat; lra. Qed.
  Lemma mx_nmx : mx <= cnt n * mx.
  Proof. pose proof mx_pos. pose proof n1. assert (1 * mx <= cnt n * mx) by (apply Qmult_le_compat_r; auto). lra. Qed.
  Lemma dlt_pos : 0 <= dlt.
  Proof. unfold dlt. pose proof nmx_pos. pose proof lunit_pos. apply Qmult_le_0_compat; lra. Qed.
  Lemma big_ok : 4 * cnt n * mx <= lbig.
  Proof. exact Hbig. Qed.

  (** [x] is [q] up to the errors of [t] operations *)
  Definition app (t : nat) (q : Q) (x : Lt) : Prop := lfin x /\ lclose (cnt t * dlt) q x.

  Lemma app_mono t t' q q' x : (t <= t')%nat -> q == q' -> app t q x -> app t' q' x.
  Proof.
    intros ht hq [h1 h2]. split; [auto|]. eapply lclose_ext; [reflexivity|exact hq|].
    eapply lclose_le; [|exact h2]. pose proof dlt_pos. apply Qmult_le_compat_r; [apply cnt_le|]; auto.
  Qed.

  Lemma app_zero t : app t 0 lzero.
  Proof.
    apply app_mono with 0%nat 0; [lia|reflexivity|]. split; [exact fmt_zero|]. rewrite <- fmt_zero_val at 1.
    change (cnt 0) with 0. unfold lclose. lra.
  Qed.

  Lemma few_errors t : (t <= 16 * n)%nat -> cnt t * dlt <= cnt n * mx.
  Proof.
    intros ht. unfold dlt. pose proof nmx_pos. pose proof lunit_pos as hu.
    assert (h1 : cnt t <= 16 * cnt n).
    { apply Qle_trans with (cnt (16 * n)); [apply cnt_le; auto|]. rewrite cnt_mul. change (cnt 16) with 16. lra. }
    assert (e : cnt t * (lunit * (4 * cnt n * mx)) == (cnt t * (4 * lunit)) * (cnt n * mx)) by ring.
    rewrite e. assert (h2 : cnt t * (4 * lunit) <= 1).
    { apply Qle_trans with (16 * cnt n * (4 * lunit)); [apply Qmult_le_compat_r; lra|lra]. }
    assert (cnt t * (4 * lunit) * (cnt n * mx) <= 1 * (cnt n * mx)) by (apply Qmult_le_compat_r; auto). lra.
  Qed.

  Lemma app_add t1 t2 q1 q2 x1 x2 : (t1 + t2 <= 16 * n)%nat -> - (3 * (cnt n * mx)) <= q1 + q2 -> q1 + q2 <= 3 * (cnt n * mx) ->
    app t1 q1 x1 -> app t2 q2 x2 -> app (S (t1 + t2)) (q1 + q2) (ladd x1 x2).
  Proof.
    intros ht h1 h2 [f1 [c1 c1']] [f2 [c2 c2']]. pose proof (few_errors ht) as he. rewrite cnt_add in he.
    destruct (@fmt_add Lt _ _ x1 x2 (4 * cnt n * mx) f1 f2) as [g1 [g2 g3]]; [lra|lra|apply big_ok|].
    split; [exact g1|]. fold dlt in g2, g3. unfold lclose. rewrite cnt_S, cnt_add. lra.
  Qed.

  Lemma app_D x y : (x < n)%nat -> (y < n)%nat -> app 0 (v x y) (lfrom (D x y)).
  Proof.
    intros hx hy. destruct (HE hx hy) as [h1 h2]. split; [auto|]. change (cnt 0) with 0. unfold lclose. lra.
  Qed.

  Lemma app_sub x y x' y' : (x < n)%nat -> (y < n)%nat -> (x' < n)%nat -> (y' < n)%nat ->
    app 1 (v x y - v x' y') (lsub (lfrom (D x y)) (lfrom (D x' y'))).
  Proof.
    intros hx hy hx' hy'. destruct (HE hx hy) as [h1 h2]. destruct (HE hx' hy') as [h1' h2'].
    pose proof (v_pos hx hy). pose proof (v_pos hx' hy'). pose proof (Hmx hx hy). pose proof (Hmx hx' hy').
    pose proof mx_nmx. pose proof nmx_pos.
    destruct (@fmt_sub Lt _ _ (lfrom (D x y)) (lfrom (D x' y')) (4 * cnt n * mx) h1 h1') as [g1 g2]; [lra|lra|apply big_ok|].
    split; [exact g1|]. fold dlt in g2. eapply lclose_ext; [| |exact g2]; [change (cnt 1) with 1; lra|lra].
  Qed.

  (** ** removal losses *)
  Lemma rec_bounds med o r a s : inr n med -> (o < n)%nat -> rec_x D med o r a s ->
    0 <= vN (dd (near r)) /\ vN (dd (near r)) <= vN (dd (seco r)) /\ vN (dd (seco r)) <= mx.
  Proof.
    intros hin ho (h1 & h2 & h3 & h4 & h5 & h6 & h7 & [m1 m2]). rewrite h6, h7.
    pose proof (inr_nth hin h1) as ha. pose proof (inr_nth hin h2) as hs.
    split; [apply (v_pos ho ha)|]. split; [apply (m1 s h2)|apply (Hmx ho hs)].
  Qed.

  Definition rl_near (data : list (Rec Nt)) (rl : list Lt) : Prop :=
    forall c, (c < length rl)%nat -> app (2 * n) (sumQ (rem_of c) data) (nth c rl lzero).

  Lemma rem_bound med data c : inr n med -> data_ok n D med data -> forall r, In r data -> - mx <= rem_of c r /\ rem_of c r <= mx.
  Proof.
    intros hin [hl hd] r hr. apply In_nth_error in hr as (o & hr). pose proof mx_pos.
    assert (ho : (o < n)%nat) by (rewrite <- hl; apply nth_error_lt with (1 := hr)).
    destruct (rec2_x HD (hd _ _ hr)) as (a & s & hx). destruct (rec_bounds hin ho hx) as (b1 & b2 & b3).
    unfold rem_of. destruct (_ =? _)%nat; lra.
  Qed.

  (** adding at one index *)
  Lemma app_add_at t (l : list Lt) (q : nat -> Q) i x qx : (i < length l)%nat ->
    (S t <= 16 * n)%nat -> - (3 * (cnt n * mx)) <= q i + qx -> q i + qx <= 3 * (cnt n * mx) ->
    (forall c, (c < length l)%nat -> app t (q c) (nth c l lzero)) -> app 1 qx x ->
    forall c, (c < length l)%nat -> app (S (S t)) (q c + (if (i =? c)%nat then qx else 0)) (nth c (set_nth l i (ladd (nth i l lzero) x)) lzero).
  Proof.
    intros hi ht h1 h2 hq hx c hc. destruct (Nat.eq_dec c i) as [->|hne].
    - rewrite nth_set_nth_eq, Nat.eqb_refl by auto.
      eapply app_mono; [| |apply app_add with (t1 := t) (t2 := 1%nat) (q1 := q i) (q2 := qx); auto]; [lia|reflexivity|lia].
    - rewrite nth_set_nth_neq by auto. replace (i =? c)%nat with false by (symmetry; apply Nat.eqb_neq; auto).
      eapply app_mono; [| |apply hq; auto]; [lia|lra].
  Qed.

  Lemma update_removal_loss_near med data (rl : list Lt) :
    inr n med -> data_ok n D med data -> length rl = length med ->
    oks (update_removal_loss data rl) (fun rl' => length rl' = length med /\ rl_near data rl').
  Proof.
    intros hin hdata hrl. pose proof hdata as [hl hd]. unfold update_removal_loss.
    eapply oks_mono.
    - apply foldM_oks with (I := fun pre (s : list Lt) => length s = length med /\
        forall c, (c < length s)%nat -> app (2 * length pre) (sumQ (rem_of c) pre) (nth c s lzero)).
      + split; [rewrite repeat_length; auto|]. intros c hc. rewrite nth_repeat_zero. apply app_zero.
      + intros pre r post s e [hs1 hs2].
        assert (hr : nth_error data (length pre) = Some r).
        { rewrite e, nth_error_app2, Nat.sub_diag; auto. }
        assert (ho : (length pre < n)%nat) by (rewrite <- hl; apply nth_error_lt with (1 := hr)).
        destruct (rec2_x HD (hd _ _ hr)) as (a & b & hx). pose proof hx as (h1 & h2 & h3 & h4 & h5 & h6 & h7 & _).
        rewrite h4. cbn [as_usize]. rewrite add_at_ok by lia. cbn [oks].
        split; [rewrite length_set_nth; auto|]. rewrite length_set_nth, app_length. cbn [length].
        assert (hb : forall x, In x (pre ++ [r]) -> - mx <= rem_of a x /\ rem_of a x <= mx).
        { intros x hx'. eapply rem_bound; eauto. rewrite e. apply in_or_app. apply in_app_or in hx' as [|[<-|[]]]; simpl; auto. }
        apply sumQ_bound in hb. rewrite sumQ_app, app_length in hb. cbn [sumQ fold_right length] in hb.
        assert (hle : cnt (length pre + 1) * mx <= cnt n * mx).
        { apply Qmult_le_compat_r; [apply cnt_le; lia|apply mx_pos]. }
        assert (hra : rem_of a r == v (length pre) (nth b med 0%nat) - v (length pre) (nth a med 0%nat)).
        { unfold rem_of. rewrite h4. cbn [as_usize]. rewrite Nat.eqb_refl, h6, h7. reflexivity. }
        pose proof nmx_pos.
        intros c hc. eapply app_mono; [| |apply app_add_at with (t := (2 * length pre)%nat) (q := fun c => sumQ (rem_of c) pre)
          (qx := v (length pre) (nth b med 0%nat) - v (length pre) (nth a med 0%nat)); auto].
        * lia.
        * cbn beta. rewrite sumQ_app. cbn [sumQ fold_right]. unfold rem_of at 3. rewrite h4. cbn [as_usize].
          rewrite h6, h7. destruct (a =? c)%nat; [|lra]. unfold vals. lra.
        * lia.
        * lia.
        * cbn beta. lra.
        * cbn beta. lra.
        * rewrite h6, h7. apply app_sub; auto using inr_nth.
    - intros s [h1 h2]. split; [auto|]. intros c hc. eapply app_mono; [| |apply h2; auto]; [lia|reflexivity].
  Qed.

  (** ** find_best_swap: the shared part and the parts of the medoids *)
  Definition shared_of (j : nat) (p : nat * Rec Nt) : Q :=
    let '(o, r) := p in if Qlt_le_dec (v o j) (vN (dd (near r))) then v o j - vN (dd (near r)) else 0.
  Definition own_of (j c : nat) (p : nat * Rec Nt) : Q :=
    let '(o, r) := p in
    if (as_usize (di (near r)) =? c)%nat then
      if Qlt_le_dec (v o j) (vN (dd (near r))) then vN (dd (near r)) - vN (dd (seco r))
      else if Qlt_le_dec (v o j) (vN (dd (seco r))) then v o j - vN (dd (seco r)) else 0
    else 0.

  Lemma part_split j c p : part_of D j c p == own_of j c p + shared_of j p.
  Proof. destruct p as [o r]. unfold part_of, own_of, shared_of. ring. Qed.

  Lemma parts_bound med data j c : inr n med -> data_ok n D med data -> (j < n)%nat ->
    forall p, In p (enum data) -> (- mx <= own_of j c p /\ own_of j c p <= mx) /\ (- mx <= shared_of j p /\ shared_of j p <= mx).
  Proof.
    intros hin [hl hd] hj [o r] hr. apply In_enum in hr. pose proof mx_pos.
    assert (ho : (o < n)%nat) by (rewrite <- hl; apply nth_error_lt with (1 := hr)).
    destruct (rec2_x HD (hd _ _ hr)) as (a & s & hx). destruct (rec_bounds hin ho hx) as (b1 & b2 & b3).
    pose proof (v_pos ho hj). pose proof (Hmx ho hj). unfold own_of, shared_of.
    destruct (_ =? _)%nat; destruct (Qlt_le_dec (v o j) (vN (dd (near r)))); destruct (Qlt_le_dec (v o j) (vN (dd (seco r)))); lra.
  Qed.

  Lemma sum_in_bound A (f : A -> Q) (l pre post : list A) : (length l = n)%nat -> l = pre ++ post -> (forall x, In x l -> - mx <= f x /\ f x <= mx) ->
    - (cnt n * mx) <= sumQ f pre /\ sumQ f pre <= cnt n * mx.
  Proof.
    intros hl e h. assert (hb : forall x, In x pre -> - mx <= f x /\ f x <= mx).
    { intros x hx. apply h. rewrite e. apply in_or_app. auto. }
    apply sumQ_bound in hb.
    assert (hle : cnt (length pre) * mx <= cnt n * mx).
    { apply Qmult_le_compat_r; [apply cnt_le|apply mx_pos]. rewrite <- hl, e, app_length. lia. }
    lra.
  Qed.

  Lemma sum_short_bound A (f : A -> Q) (l : list A) : (length l <= n)%nat -> (forall x, In x l -> - mx <= f x /\ f x <= mx) ->
    - (cnt n * mx) <= sumQ f l /\ sumQ f l <= cnt n * mx.
  Proof.
    intros hl h. apply sumQ_bound in h.
    assert (hle : cnt (length l) * mx <= cnt n * mx) by (apply Qmult_le_compat_r; [apply cnt_le; auto|apply mx_pos]). lra.
  Qed.

  (** some of the objects, starting from values [q c] for the medoids *)
  Lemma fbs_fold_part med data (l : list (nat * Rec Nt)) (rl : list Lt) t q j :
    inr n med -> data_ok n D med data -> length rl = length med -> (j < n)%nat ->
    (length l <= n)%nat -> (forall p, In p l -> In p (enum data)) -> (t <= 2 * n)%nat ->
    (forall c, - (cnt n * mx) <= q c /\ q c <= cnt n * mx) ->
    (forall c, (c < length med)%nat -> app t (q c) (nth c rl lzero)) ->
    oks (foldM (fbs_step M j) l (rl, lzero)) (fun st => length (fst st) = length med /\
      (forall c, (c < length med)%nat -> app (t + 2 * length l) (q c + sumQ (own_of j c) l) (nth c (fst st) lzero)) /\
      app (2 * length l) (sumQ (shared_of j) l) (snd st)).
  Proof.
    intros hin hdata hrl hj hll hsub htn hR hrn. pose proof hdata as [hl hd]. pose proof nmx_pos as hnm.
    eapply oks_mono.
    - apply foldM_oks with (I := fun pre (st : list Lt * Lt) => length (fst st) = length med /\
        (forall c, (c < length (fst st))%nat ->
           app (t + 2 * length pre) (q c + sumQ (own_of j c) pre) (nth c (fst st) lzero)) /\
        app (2 * length pre) (sumQ (shared_of j) pre) (snd st)).
      + cbn [fst snd]. split; [auto|]. split; [|apply app_zero].
        intros c hc. eapply app_mono; [| |apply hrn; lia]; [lia|]. cbn [sumQ fold_right]. lra.
      + intros pre [o r] post [pl acc] e (hs1 & hs2 & hs3). cbn [fst snd] in hs1, hs2, hs3.
        assert (hr : nth_error data o = Some r).
        { apply In_enum. apply hsub. rewrite e. apply in_or_app. simpl. auto. }
        assert (ho : (o < n)%nat) by (rewrite <- hl; apply nth_error_lt with (1 := hr)).
        assert (hpl : (length pre < length l)%nat) by (rewrite e, app_length; cbn [length]; lia).
        assert (hpre : forall p, In p (pre ++ [(o, r)]) -> In p (enum data)).
        { intros p hp. apply hsub. rewrite e. apply in_or_app. apply in_app_or in hp as [|[<-|[]]]; simpl; auto. }
        destruct (rec2_x HD (hd _ _ hr)) as (a & s & hx).
        destruct hx as (h1 & h2 & h3 & h4 & h5 & h6 & h7 & _).
        unfold fbs_step. rewrite (get_ok HM) by auto. cbn [bind]. rewrite h4, h6, h7. cbn [as_usize].
        assert (ha : (nth a med 0 < n)%nat) by auto using inr_nth.
        assert (hs : (nth s med 0 < n)%nat) by auto using inr_nth.
        rewrite !(nltb_dec HD) by auto.
        assert (hbo : forall c, - (cnt n * mx) <= sumQ (own_of j c) (pre ++ [(o, r)]) /\ sumQ (own_of j c) (pre ++ [(o, r)]) <= cnt n * mx).
        { intros c. apply sum_short_bound; [rewrite app_length; cbn [length]; lia|].
          intros p hp. eapply parts_bound; eauto. }
        assert (hbs : - (cnt n * mx) <= sumQ (shared_of j) (pre ++ [(o, r)]) /\ sumQ (shared_of j) (pre ++ [(o, r)]) <= cnt n * mx).
        { apply sum_short_bound; [rewrite app_length; cbn [length]; lia|].
          intros p hp. eapply (@parts_bound med data j 0); eauto. }
        assert (Po : forall c, own_of j c (o, r) == (if (a =? c)%nat then
            if Qlt_le_dec (v o j) (v o (nth a med 0%nat)) then v o (nth a med 0%nat) - v o (nth s med 0%nat)
            else if Qlt_le_dec (v o j) (v o (nth s med 0%nat)) then v o j - v o (nth s med 0%nat) else 0 else 0)).
        { intros c. unfold own_of. rewrite h4, h6, h7. reflexivity. }
        assert (Ps : shared_of j (o, r) == (if Qlt_le_dec (v o j) (v o (nth a med 0%nat)) then v o j - v o (nth a med 0%nat) else 0)).
        { unfold shared_of. rewrite h6. reflexivity. }
        assert (So : forall c, sumQ (own_of j c) (pre ++ [(o, r)]) == sumQ (own_of j c) pre + own_of j c (o, r)).
        { intros c. rewrite sumQ_app. cbn [sumQ fold_right]. lra. }
        assert (Ss : sumQ (shared_of j) (pre ++ [(o, r)]) == sumQ (shared_of j) pre + shared_of j (o, r)).
        { rewrite sumQ_app. cbn [sumQ fold_right]. lra. }
        pose proof (hR a) as hRa. pose proof (hbo a) as hboa. pose proof (So a) as Soa. pose proof (Po a) as Poa.
        rewrite Nat.eqb_refl in Poa.
        rewrite app_length. cbn [length].
        destruct (Qlt_le_dec (v o j) (v o (nth a med 0%nat))) as [d1|d1].
        * rewrite add_at_ok by lia. cbn [bind oks fst snd].
          split; [rewrite length_set_nth; auto|]. split.
          -- rewrite length_set_nth. intros c hc.
             eapply app_mono; [| |apply app_add_at with (t := (t + 2 * length pre)%nat)
               (q := fun c => q c + sumQ (own_of j c) pre) (qx := v o (nth a med 0%nat) - v o (nth s med 0%nat)); auto].
             ++ lia.
             ++ cbn beta. rewrite So, Po. destruct (a =? c)%nat; lra.
             ++ lia.
             ++ lia.
             ++ cbn beta. lra.
             ++ cbn beta. lra.
             ++ apply app_sub; auto.
          -- eapply app_mono; [| |apply app_add with (t1 := (2 * length pre)%nat) (t2 := 1%nat); [| | |exact hs3|apply app_sub; auto]].
             ++ lia.
             ++ rewrite Ss, Ps. reflexivity.
             ++ lia.
             ++ lra.
             ++ lra.
        * assert (hs3' : app (2 * (length pre + 1)) (sumQ (shared_of j) (pre ++ [(o, r)])) acc).
          { eapply app_mono; [| |exact hs3]; [lia|]. rewrite Ss, Ps. lra. }
          destruct (Qlt_le_dec (v o j) (v o (nth s med 0%nat))) as [d2|d2].
          -- rewrite add_at_ok by lia. cbn [bind oks fst snd].
             split; [rewrite length_set_nth; auto|]. split; [|exact hs3'].
             rewrite length_set_nth. intros c hc.
             eapply app_mono; [| |apply app_add_at with (t := (t + 2 * length pre)%nat)
               (q := fun c => q c + sumQ (own_of j c) pre) (qx := v o j - v o (nth s med 0%nat)); auto].
             ++ lia.
             ++ cbn beta. rewrite So, Po. destruct (a =? c)%nat; lra.
             ++ lia.
             ++ lia.
             ++ cbn beta. lra.
             ++ cbn beta. lra.
             ++ apply app_sub; auto.
          -- cbn [bind oks fst snd]. split; [auto|]. split; [|exact hs3'].
             intros c hc. eapply app_mono; [| |apply hs2; auto]; [lia|]. rewrite So, Po. destruct (a =? c)%nat; lra.
    - intros [pl acc] (h1 & h2 & h3). cbn [fst snd] in *. split; [auto|]. split; [|exact h3].
      intros c hc. apply h2. lia.
  Qed.

  Lemma fbs_fold_near med data (rl : list Lt) j :
    inr n med -> data_ok n D med data -> length rl = length med -> (j < n)%nat -> rl_near data rl ->
    oks (foldM (fbs_step M j) (enum data) (rl, lzero)) (fun st => length (fst st) = length med /\
      (forall c, (c < length med)%nat -> app (4 * n) (sumQ (rem_of c) data + sumQ (own_of j c) (enum data)) (nth c (fst st) lzero)) /\
      app (2 * n) (sumQ (shared_of j) (enum data)) (snd st)).
  Proof.
    intros hin hdata hrl hj hrn. pose proof hdata as [hl hd].
    eapply oks_mono.
    - apply fbs_fold_part with (med := med) (data := data) (t := (2 * n)%nat) (q := fun c => sumQ (rem_of c) data); auto.
      + rewrite length_enum. lia.
      + intros c. apply sum_in_bound with (l := data) (post := []); auto; [rewrite app_nil_r; auto|]. eapply rem_bound; eauto.
      + intros c hc. apply hrn. lia.
    - intros [pl acc] (h1 & h2 & h3). cbn [fst snd] in *. rewrite length_enum, hl in *. split; [auto|]. split; [|exact h3].
      intros c hc. eapply app_mono; [| |apply h2; lia]; [lia|reflexivity].
  Qed.

  (** the error of an evaluated change *)
  Definition err : Q := cnt n * cnt n * mx * (32 * lunit).

  Lemma err_pos : 0 <= err.
  Proof.
    unfold err. pose proof nmx_pos. pose proof n1. assert (0 < 32 * lunit) by (pose proof lunit_pos; lra).
    assert (e : cnt n * cnt n * mx * (32 * lunit) == cnt n * (cnt n * mx) * (32 * lunit)) by ring. rewrite e.
    apply Qmult_le_0_compat; [apply Qmult_le_0_compat|]; lra.
  Qed.

  Lemma err_app t : (t <= 6 * n + 1)%nat -> cnt t * dlt <= err.
  Proof.
    intros ht. apply Qle_trans with (cnt (8 * n) * dlt).
    - apply Qmult_le_compat_r; [apply cnt_le; lia|apply dlt_pos].
    - rewrite cnt_mul. unfold err, dlt. apply Qle_lteq. right. change (cnt 8) with 8.
      ring.
  Qed.

  Lemma app_close t q x : (t <= 6 * n + 1)%nat -> app t q x -> lfin x /\ lclose err q x.
  Proof. intros ht [h1 h2]. split; [auto|]. eapply lclose_le; [|exact h2]. apply err_app. auto. Qed.

  (** the change returned for a candidate: near the exact change, and the best one up to the error *)
  Definition slot_near (med : list nat) (j : nat) (p : Lt * nat) : Prop :=
    (snd p < length med)%nat /\ lfin (fst p) /\ lclose err (delta n D med (snd p) j) (fst p) /\
    (forall c, (c < length med)%nat -> lval (fst p) <= delta n D med c j + err).

  Lemma find_best_swap_near med data (rl : list Lt) j :
    inr n med -> data_ok n D med data -> length rl = length med -> (1 <= length med)%nat -> (j < n)%nat ->
    rl_near data rl ->
    oks (find_best_swap M rl data j) (slot_near med j).
  Proof.
    intros hin hdata hrl hk hj hrn. pose proof hdata as [hl hd]. unfold find_best_swap. pose proof nmx_pos.
    eapply oks_bind; [apply fbs_fold_near; eauto|].
    intros [pl acc] (hs1 & hs2 & hs3). cbn [fst snd] in hs1, hs2, hs3.
    eapply oks_bind; [apply find_min_fmt|].
    - intros ->. simpl in hs1. lia.
    - intros x hx. apply (In_nth _ _ (lzero : Lt)) in hx as (c & hc & <-). apply hs2. lia.
    - intros [b bl] (q1 & q2 & q3). cbn [fst snd] in *. rewrite hs1 in *. cbn [oks].
      assert (hdel : forall c, (c < length med)%nat ->
        sumQ (rem_of c) data + sumQ (own_of j c) (enum data) + sumQ (shared_of j) (enum data) == delta n D med c j).
      { intros c hc. unfold delta. rewrite <- (part_delta HD hin hj hc hdata).
        rewrite (sumQ_ext (part_of D j c) (fun p => own_of j c p + shared_of j p)) by (intros; apply part_split).
        rewrite sumQ_plus. ring. }
      assert (hbs : - (cnt n * mx) <= sumQ (shared_of j) (enum data) /\ sumQ (shared_of j) (enum data) <= cnt n * mx).
      { apply sum_in_bound with (l := enum data) (post := []); [rewrite length_enum; auto|rewrite app_nil_r; auto|].
        intros p hp. eapply (@parts_bound med data j 0); eauto. }
      assert (hbo : - (cnt n * mx) <= sumQ (own_of j b) (enum data) /\ sumQ (own_of j b) (enum data) <= cnt n * mx).
      { apply sum_in_bound with (l := enum data) (post := []); [rewrite length_enum; auto|rewrite app_nil_r; auto|].
        intros p hp. eapply (@parts_bound med data j b); eauto. }
      assert (hbr : - (cnt n * mx) <= sumQ (rem_of b) data /\ sumQ (rem_of b) data <= cnt n * mx).
      { apply sum_in_bound with (l := data) (post := []); [auto|rewrite app_nil_r; auto|]. eapply rem_bound; eauto. }
      pose proof (hs2 b q1) as hb. rewrite <- q2 in hb.
      assert (hsum : app (S (4 * n + 2 * n)) (sumQ (rem_of b) data + sumQ (own_of j b) (enum data) + sumQ (shared_of j) (enum data)) (ladd bl acc)).
      { apply app_add; auto; [lia|lra|lra]. }
      destruct (@app_close (S (4 * n + 2 * n)) _ _ ltac:(lia) hsum) as [g1 g2].
      unfold slot_near. cbn [fst snd]. split; [auto|]. split; [auto|].
      split; [eapply lclose_ext; [reflexivity|apply hdel; auto|exact g2]|].
      intros c hc. specialize (q3 c hc). destruct (hs2 c hc) as [_ [c1 c2]]. destruct hb as [fb [b1 b2]].
      destruct hs3 as [fa [a1 a2]]. rewrite <- (hdel c hc).
      pose proof (@few_errors (4 * n + 2 * n) ltac:(lia)) as he. rewrite cnt_add in he.
      pose proof dlt_pos as hdp. assert (hn4 : 0 <= cnt (4 * n) * dlt) by (apply Qmult_le_0_compat; [apply cnt_pos|auto]).
      assert (hn2 : 0 <= cnt (2 * n) * dlt) by (apply Qmult_le_0_compat; [apply cnt_pos|auto]).
      destruct (@fmt_add Lt _ _ bl acc (4 * cnt n * mx) fb fa) as [_ [_ g4]]; [lra|lra|apply big_ok|]. fold dlt in g4.
      
      pose proof (@err_app (S (4 * n + 2 * n)) ltac:(lia)) as he'. rewrite cnt_S, cnt_add in he'. lra.
  Qed.

  (** ** the computed loss *)
  Definition lerr : Q := cnt n * cnt n * mx * (2 * lunit).
  Lemma lerr_err : 16 * lerr == err.
  Proof. unfold lerr, err. ring. Qed.

  (** the terms of the loss, added up in any way *)
  Definition losses (data : list (Rec Nt)) : list Lt := map (fun r => lfrom (dd (near r))) data.

  Lemma near_sum_bracketed data s : near_sum data = Some s -> bracketed (losses data) s.
  Proof. apply reduce_bracketed. Qed.

  Lemma bracketed_rel med data s : inr n med -> data_ok n D med data -> bracketed (losses data) s ->
    lfin s /\ 0 <= tdev v n med /\ tdev v n med <= cnt n * mx /\
    lclose ((cnt n - 1) * (2 * lunit) * tdev v n med) (tdev v n med) s.
  Proof.
    intros hin [hl hd] hs. unfold losses in hs.
    set (l := map (fun r => lfrom (dd (near r))) data) in *.
    assert (hll : length l = n) by (unfold l; rewrite map_length; auto).
    assert (hr : forall r, In r data -> exists x y, (x < n)%nat /\ (y < n)%nat /\ dd (near r) = D x y).
    { intros r hr. apply In_nth_error in hr as (o & hr).
      assert (ho : (o < n)%nat) by (rewrite <- hl; apply nth_error_lt with (1 := hr)).
      destruct (rec2_x HD (hd o r hr)) as (a & b & h1 & _ & _ & _ & _ & -> & _). exists o, (nth a med 0%nat). auto using inr_nth. }
    assert (hw : forall x, In x l -> lfin x /\ 0 <= lval x /\ lval x <= mx).
    { intros x hx. unfold l in hx. apply in_map_iff in hx as (r & <- & hr'). destruct (hr r hr') as (x & y & hx & hy & ->).
      destruct (HE hx hy) as [e1 e2]. pose proof (v_pos hx hy). pose proof (Hmx hx hy).
      rewrite e2. auto. }
    pose proof n1 as hn1. pose proof lunit_pos as hu. pose proof nmx_pos as hnm.
    assert (hcu : 0 <= cnt n * lunit) by (apply Qmult_le_0_compat; lra).
    destruct (@fmt_sum Lt _ _ l s mx hs) as (b2 & b3); [rewrite hll; lra|rewrite hll; lra|exact hw|].
    assert (hT : sumQ lval l == tdev v n med).
    { unfold tdev, l. rewrite (sumQ_enum data) by auto. rewrite sumQ_map. rewrite <- (map_snd_enum data) at 1. rewrite sumQ_map.
      apply sumQ_ext. intros [o r] h. apply In_enum in h. simpl.
      assert (ho : (o < n)%nat) by (rewrite <- hl; apply nth_error_lt with (1 := h)).
      destruct (rec2_x HD (hd o r h)) as (a & b & hx). destruct (rec_x_near hx) as [-> _].
      destruct hx as (h1 & _ & _ & _ & _ & -> & _). apply HE; auto using inr_nth. }
    assert (hub : sumQ lval l <= cnt n * mx).
    { rewrite <- hll. apply sumQ_bound. intros x hx. destruct (hw x hx) as (_ & h1 & h2). pose proof mx_pos. lra. }
    assert (h0 : 0 <= sumQ lval l) by (apply sumQ_nonneg; intros x hx; apply hw; auto).
    split; [exact b2|]. split; [lra|]. split; [lra|].
    eapply lclose_ext; [rewrite <- hT, <- hll; reflexivity|exact hT|exact b3].
  Qed.

  Lemma bracketed_close med data s : inr n med -> data_ok n D med data -> bracketed (losses data) s ->
    lfin s /\ lclose lerr (tdev v n med) s.
  Proof.
    intros hin hd hs. destruct (bracketed_rel hin hd hs) as (h1 & h0 & hub & h2).
    split; [exact h1|]. eapply lclose_le; [|exact h2]. unfold lerr.
    set (S := tdev v n med) in *. pose proof n1 as hn1. assert (hu : 0 < 2 * lunit) by (pose proof lunit_pos; lra).
    assert (e1 : (cnt n - 1) * (2 * lunit) * S <= cnt n * (2 * lunit) * S).
    { apply Qmult_le_compat_r; [|auto]. apply Qmult_le_compat_r; lra. }
    assert (e2 : S * (cnt n * (2 * lunit)) <= cnt n * mx * (cnt n * (2 * lunit))).
    { apply Qmult_le_compat_r; [auto|]. apply Qmult_le_0_compat; lra. }
    lra.
  Qed.

  Lemma near_sum_close med data s : inr n med -> data_ok n D med data -> near_sum data = Some s ->
    lfin s /\ lclose lerr (tdev v n med) s.
  Proof. intros hin hd hs. eapply bracketed_close; eauto. apply near_sum_bracketed. exact hs. Qed.

  (** ** pam.rs: the change of one swap *)
  Lemma pam_change_near med data j m r :
    inr n med -> data_ok n D med data -> (m < length med)%nat -> (j < n)%nat -> nth_error data j = Some r ->
    oks (foldM (pam_change_step M j m) (enum data) (lneg (lfrom (dd (near r))))) (fun acc =>
      lfin acc /\ lclose err (delta n D med m j) acc).
  Proof.
    intros hin hdata hm hj hr. pose proof hdata as [hl hd]. pose proof nmx_pos as hnm. pose proof mx_nmx as hmn.
    destruct (rec2_x HD (hd _ _ hr)) as (aj & sj & hxj). pose proof hxj as (j1 & _ & _ & _ & _ & j6 & _).
    pose proof (inr_nth hin j1) as hja.
    destruct (rec_bounds hin hj hxj) as (c1 & c2 & c3).
    assert (hpt : forall p, In p (enum data) -> - mx <= pam_term D j m p /\ pam_term D j m p <= mx).
    { intros [o ro] hro. apply In_enum in hro. pose proof mx_pos.
      assert (ho : (o < n)%nat) by (rewrite <- hl; apply nth_error_lt with (1 := hro)).
      destruct (rec2_x HD (hd _ _ hro)) as (a & s & hx). destruct (rec_bounds hin ho hx) as (b1 & b2 & b3).
      pose proof (v_pos ho hj). pose proof (Hmx ho hj). unfold pam_term.
      destruct (o =? j)%nat; [lra|]. destruct (_ =? _)%nat; destruct (Qlt_le_dec _ _); lra. }
    eapply oks_mono.
    - apply foldM_oks with (I := fun pre (acc : Lt) =>
        app (2 * length pre) (- vN (dd (near r)) + sumQ (pam_term D j m) pre) acc).
      + cbn [length sumQ fold_right]. rewrite j6. destruct (HE hj hja) as [e1 e2].
        split; [apply (fmt_neg _ e1)|]. change (cnt (2 * 0)) with 0. unfold lclose. rewrite (proj2 (fmt_neg _ e1)), e2. unfold vals. lra.
      + intros pre [o ro] post acc e hacc.
        assert (hro : nth_error data o = Some ro).
        { apply In_enum. rewrite e. apply in_or_app. simpl. auto. }
        assert (ho : (o < n)%nat) by (rewrite <- hl; apply nth_error_lt with (1 := hro)).
        assert (hpl : (length pre < n)%nat).
        { rewrite <- hl, <- (length_enum data), e, app_length. cbn [length]. lia. }
        assert (e' : enum data = (pre ++ [(o, ro)]) ++ post) by (rewrite <- app_assoc; exact e).
        assert (hb : - (cnt n * mx) <= sumQ (pam_term D j m) (pre ++ [(o, ro)]) /\ sumQ (pam_term D j m) (pre ++ [(o, ro)]) <= cnt n * mx).
        { apply sum_in_bound with (l := enum data) (post := post); auto. rewrite length_enum; auto. }
        destruct (rec2_x HD (hd _ _ hro)) as (a & s & hx).
        destruct hx as (h1 & h2 & h3 & h4 & h5 & h6 & h7 & _).
        assert (ha : (nth a med 0 < n)%nat) by auto using inr_nth.
        assert (hs : (nth s med 0 < n)%nat) by auto using inr_nth.
        assert (E : sumQ (pam_term D j m) (pre ++ [(o, ro)]) == sumQ (pam_term D j m) pre + pam_term D j m (o, ro)).
        { rewrite sumQ_app. simpl. lra. }
        assert (stay : pam_term D j m (o, ro) == 0 ->
          app (2 * length (pre ++ [(o, ro)])) (- vN (dd (near r)) + sumQ (pam_term D j m) (pre ++ [(o, ro)])) acc).
        { intros hz. eapply app_mono; [| |exact hacc]; [rewrite app_length; lia|]. lra. }
        assert (step : forall x q, pam_term D j m (o, ro) == q -> app 1 q x ->
          app (2 * length (pre ++ [(o, ro)])) (- vN (dd (near r)) + sumQ (pam_term D j m) (pre ++ [(o, ro)])) (ladd acc x)).
        { intros x q hq hx. eapply app_mono; [| |apply app_add with (t1 := (2 * length pre)%nat) (t2 := 1%nat); [| | |exact hacc|exact hx]].
          - rewrite app_length. cbn [length]. lia.
          - lra.
          - lia.
          - lra.
          - lra. }
        unfold pam_change_step. unfold pam_term in stay at 1, step at 1.
        destruct (o =? j)%nat eqn:eo; [cbn [oks]; apply stay; reflexivity|].
        rewrite (get_ok HM) by auto. cbn [bind oks].
        rewrite h4, h6, h7 in *. cbn [as_usize] in *.
        rewrite !(nltb_dec HD) by auto.
        change (vN (D o (nth a med 0%nat))) with (v o (nth a med 0%nat)) in stay, step.
        change (vN (D o (nth s med 0%nat))) with (v o (nth s med 0%nat)) in stay, step.
        destruct (a =? m)%nat.
        * destruct (Qlt_le_dec (v o j) (v o (nth s med 0%nat))); (eapply step; [reflexivity|apply app_sub; auto]).
        * destruct (Qlt_le_dec (v o j) (v o (nth a med 0%nat))); [eapply step; [reflexivity|apply app_sub; auto]|].
          apply stay; reflexivity.
    - intros acc hacc. cbv beta in hacc. rewrite length_enum, hl in hacc.
      apply (@app_close (2 * n) (delta n D med m j) acc); [lia|].
      eapply app_mono; [| |exact hacc]; [lia|]. apply (pam_delta HD hin hdata hm hj hr).
  Qed.

  (** ** the best swap of an iteration *)
  Definition best_near (med : list nat) (t : nat) (best : best_swap) : Prop :=
    lfin (fst best) /\ lval (fst best) <= 0 /\
    match snd best with
    | None => lval (fst best) == 0
    | Some (b, j) => lclose err (delta n D med b j) (fst best)
    end /\
    (forall j c, (j < t)%nat -> (c < length med)%nat -> lval (fst best) <= delta n D med c j + err).

  Lemma best_near_0 med : best_near med 0 (lzero, None).
  Proof. split; [exact fmt_zero|]. cbn [fst snd]. rewrite fmt_zero_val. split; [lra|]. split; [reflexivity|]. intros; lia. Qed.

  Lemma delta_medoid med c j : (c < length med)%nat -> In j med -> 0 <= delta n D med c j.
  Proof. intros hc hj. unfold delta. pose proof (@tdev_swap_medoid v n med c j hc hj). lra. Qed.

  Lemma best_near_medoid med j best : In j med -> best_near med j best -> best_near med (S j) best.
  Proof.
    intros hj (h1 & h2 & h3 & h4). split; [auto|]. split; [auto|]. split; [auto|].
    intros i c hi hc. destruct (Nat.eq_dec i j) as [->|]; [|apply h4; auto; lia].
    pose proof (@delta_medoid med c j hc hj). pose proof err_pos. lra.
  Qed.

  Lemma best_near_keep med j best x : best_near med j best -> lfin x -> lleb (fst best) x = true ->
    (forall c, (c < length med)%nat -> lval x <= delta n D med c j + err) -> best_near med (S j) best.
  Proof.
    intros (h1 & h2 & h3 & h4) hf hle hx. split; [auto|]. split; [auto|]. split; [auto|].
    apply fmt_lleb in hle; auto.
    intros i c hi hc. destruct (Nat.eq_dec i j) as [->|]; [|apply h4; auto; lia]. specialize (hx c hc). lra.
  Qed.

  Lemma best_near_new med j best x b : best_near med j best -> lfin x -> lleb (fst best) x = false ->
    lclose err (delta n D med b j) x ->
    (forall c, (c < length med)%nat -> lval x <= delta n D med c j + err) -> best_near med (S j) (x, Some (b, j)).
  Proof.
    intros (h1 & h2 & h3 & h4) hf hle hc hx. apply fmt_lleb_false in hle; auto. unfold best_near. cbn [fst snd].
    split; [auto|]. split; [lra|]. split; [auto|].
    intros i c hi hc'. destruct (Nat.eq_dec i j) as [->|]; [apply hx; auto|]. specialize (h4 i c ltac:(lia) hc'). lra.
  Qed.

  Lemma fastpam1_cand_near k (st : pst Nt Lt) (rl : list Lt) best j :
    (1 <= k)%nat -> p_inv n D k st -> length rl = k -> rl_near (p_data st) rl -> (j < n)%nat -> best_near (p_med st) j best ->
    oks (fastpam1_cand M (p_med st) (p_data st) rl best j) (best_near (p_med st) (S j)).
  Proof.
    intros hk [i1 i2 i3] hl hrl hj hb. unfold fastpam1_cand.
    destruct (nth_error_ex (p_data st) (i := j)) as [r hr]; [destruct i3; lia|].
    rewrite (idx_some _ _ hr). cbn [bind].
    destruct (rec2_near (proj2 i3 j r hr)) as (a & ea & ha).
    rewrite ea. cbn [as_usize]. rewrite idx_nth with (d := 0%nat) by auto. cbn [bind].
    destruct (j =? nth a (p_med st) 0)%nat eqn:em.
    { apply Nat.eqb_eq in em. cbn [oks]. apply best_near_medoid; auto. rewrite em. apply nth_In. auto. }
    eapply oks_bind; [apply find_best_swap_near; eauto; lia|].
    intros [x b] (s1 & s2 & s3 & s4). cbn [fst snd] in *.
    destruct (lleb (fst best) x) eqn:el; cbn [oks]; [eapply best_near_keep; eauto|eapply best_near_new; eauto].
  Qed.

  Lemma pam_cand_near k (st : pst Nt Lt) best j :
    p_inv n D k st -> (j < n)%nat -> best_near (p_med st) j best ->
    oks (pam_cand M (p_med st) (p_data st) best j) (best_near (p_med st) (S j)).
  Proof.
    intros [i1 i2 i3] hj hb. unfold pam_cand.
    destruct (nth_error_ex (p_data st) (i := j)) as [r hr]; [destruct i3; lia|].
    rewrite (idx_some _ _ hr). cbn [bind].
    destruct (rec2_near (proj2 i3 j r hr)) as (a & ea & ha).
    rewrite ea. cbn [as_usize]. rewrite idx_nth with (d := 0%nat) by auto. cbn [bind].
    destruct (j =? nth a (p_med st) 0)%nat eqn:em.
    { apply Nat.eqb_eq in em. cbn [oks]. apply best_near_medoid; auto. rewrite em. apply nth_In. auto. }
    unfold find_best_swap_pam. rewrite (idx_some _ _ hr). cbn [bind].
    eapply oks_bind.
    - apply foldM_seq with (I := fun t (p : Lt * option nat) => lfin (fst p) /\
        match snd p with None => lval (fst p) == 0 | Some b => lclose err (delta n D (p_med st) b j) (fst p) end /\
        (forall c, (c < t)%nat -> lval (fst p) <= delta n D (p_med st) c j + err)).
      + cbn [fst snd]. split; [exact fmt_zero|]. split; [rewrite fmt_zero_val; reflexivity|]. intros; lia.
      + intros m p hm (p1 & p2 & p3).
        eapply oks_bind; [apply pam_change_near with (med := p_med st); eauto|].
        intros acc [ha1 [ha2 ha3]]. cbn [oks]. destruct (lltb acc (fst p)) eqn:el.
        * apply fmt_lltb in el; auto. cbn [fst snd]. split; [auto|]. split; [split; auto|].
          intros c hc. destruct (Nat.eq_dec c m) as [->|]; [lra|]. specialize (p3 c ltac:(lia)). lra.
        * apply fmt_lltb_false in el; auto. split; [auto|]. split; [auto|].
          intros c hc. destruct (Nat.eq_dec c m) as [->|]; [lra|]. apply p3; lia.
    - intros [x ob] (p1 & p2 & p3). cbn [fst snd] in *.
      destruct (lleb (fst best) x) eqn:el; cbn [oks]; [eapply best_near_keep; eauto|].
      destruct ob as [b|]; [eapply best_near_new; eauto|].
      (* the initial value is not below the best one *)
      exfalso. destruct hb as (h1 & h2 & _). apply fmt_lleb_false in el; auto. lra.
  Qed.

  (** ** where fastpam1 and pam stop *)
  Definition eps : Q := cnt n * cnt n * mx * (128 * lunit).
  Lemma eps_err : eps == 4 * err.
  Proof. unfold eps, err. ring. Qed.

  (** no swap gains more than [e] *)
  Definition nearly (e : Q) (med : list nat) : Prop :=
    forall b j, (b < length med)%nat -> (j < n)%nat -> tdev v n med - e <= tdev v n (swap med b j).

  Definition stopped (k : nat) (st : pst Nt Lt) : Prop :=
    exists med0, medoids n k med0 /\ nearly eps med0 /\
      (p_med st = med0 \/ exists b j, (b < k)%nat /\ (j < n)%nat /\ p_med st = swap med0 b j) /\
      lclose eps (tdev v n med0) (p_loss st) /\
      tdev v n med0 - eps <= tdev v n (p_med st) /\ tdev v n (p_med st) <= tdev v n med0 + eps.

  Hypothesis Hz : lfrom (nzero : Nt) = (lzero : Lt).
  Let zi : lltb (lzero : Lt) lzero = false := fmt_zz.

  (** the loss kept in the state is near the total deviation *)
  Definition near_loss (st : pst Nt Lt) : Prop := lfin (p_loss st) /\ lclose err (tdev v n (p_med st)) (p_loss st).

  Lemma near_sum_loss k (st : pst Nt Lt) : p_inv n D k st -> near_sum (p_data st) = Some (p_loss st) -> near_loss st.
  Proof.
    intros [i1 i2 i3] hsum. destruct (near_sum_close i2 i3 hsum) as [lf [l1 l2]].
    pose proof lerr_err as hle. pose proof err_pos as hep. split; [auto|]. unfold lclose. lra.
  Qed.

  Lemma swap_best_near k (st : pst Nt Lt) rl best :
    pf_inv n D k st -> best_new n st best -> near_loss st ->
    best_near (p_med st) n best ->
    oks (swap_best M st rl best) (fun c => match c with
      | Next s => pf_inv n D k s /\ near_loss s /\ p_rl s = rl /\ p_iter s = p_iter st /\ lval (p_loss s) <= lval (p_loss st)
      | Break s => p_iter s = p_iter st /\ p_loss s = p_loss st /\ stopped k s
      end).
  Proof.
    intros hi hnew [lf [l1 l2]] (b1 & b2 & b3 & b4). pose proof (proj2 (emb_vals HD)) as hg.
    pose proof hi as [[i1 i2 i3] hnd hown]. unfold swap_best.
    pose proof lerr_err as hle. pose proof eps_err as hee. pose proof err_pos as hep.
    destruct (lltb (fst best) lzero) eqn:e.
    - apply fmt_lltb in e; [|auto|exact fmt_zero]. rewrite fmt_zero_val in e.
      unfold best_new in hnew. destruct (snd best) as [[b j]|] eqn:es; [|lra].
      destruct hnew as (hb & hj & hjm).
      pose proof (do_swap_ok (Lt := Lt) HM Hn i2 hj hb i3) as hs.
      apply oks_inv in hs as ([[med' data'] loss'] & -> & -> & hd & s2 & s3 & s4). cbn [bind].
      assert (hs' : near_sum data' = Some loss').
      { rewrite <- s2. symmetry. apply near_sum0_near_sum; auto. intros r hr. rewrite (s3 r hr). auto. }
      destruct (near_sum_close (inr_set_nth b i2 hj) hd hs') as [lf' [l1' l2']].
      destruct (lleb (p_loss st) loss') eqn:el; cbn [oks p_iter p_loss p_rl].
      + apply fmt_lleb in el; auto. split; [auto|]. split; [auto|]. exists (p_med st). cbn [p_med p_loss].
        destruct b3 as [b3 b3']. unfold delta in b3, b3'. rewrite swap_set_nth in b3, b3' by auto.
        split; [split; auto|]. split.
        { intros c i hc hi'. specialize (b4 i c hi' hc). unfold delta in b4. lra. }
        split; [right; exists b, j; split; [lia|]; split; [auto|]; symmetry; apply swap_set_nth; auto|].
        unfold lclose. lra.
      + apply fmt_lleb_false in el; auto. split.
        { constructor; cbn [p_med p_data].
          - constructor; cbn [p_med p_data]; auto; [rewrite length_set_nth; auto|apply inr_set_nth; auto].
          - apply NoDup_set_nth; auto.
          - eapply s4; eauto. }
        split; [split; [exact lf'|]; cbn [p_med p_loss]; unfold lclose; lra|]. split; [auto|]. split; [auto|lra].
    - apply fmt_lltb_false in e; [|auto|exact fmt_zero]. rewrite fmt_zero_val in e.
      cbn [oks p_iter p_loss]. split; [auto|]. split; [auto|]. exists (p_med st). cbn [p_med p_loss].
      split; [split; auto|]. split.
      { intros c i hc hi'. specialize (b4 i c hi' hc). unfold delta in b4. lra. }
      split; [auto|]. unfold lclose. lra.
  Qed.

  (** the state at the end: [L0] is the loss at the beginning *)
  Definition ended (k maxiter : nat) (L0 : Lt) (st : pst Nt Lt) : Prop :=
    lval (p_loss st) <= lval L0 /\ tdev v n (p_med st) <= lval (p_loss st) + 2 * eps /\
    ((p_iter st < maxiter)%nat -> stopped k st).

  Lemma stopped_le k (st : pst Nt Lt) : stopped k st -> tdev v n (p_med st) <= lval (p_loss st) + 2 * eps.
  Proof. intros (med0 & _ & _ & _ & [h1 h2] & h3 & h4). lra. Qed.

  Lemma fastpam1_near k maxiter (st : pst Nt Lt) :
    (1 <= k)%nat -> pf_inv n D k st -> length (p_rl st) = k -> near_loss st -> p_iter st = 0%nat ->
    oks (whileM maxiter (fastpam1_iteration M) st) (ended k maxiter (p_loss st)).
  Proof.
    intros hk hi hl hsum hit. remember (p_loss st) as L0 eqn:eL.
    apply whileM_oks with (I := fun i s => pf_inv n D k s /\ length (p_rl s) = k /\
      near_loss s /\ p_iter s = i /\ lval (p_loss s) <= lval L0).
    - rewrite <- eL. repeat split; auto; try apply hi; try apply hsum. lra.
    - clear st hi hl hsum hit eL. intros i st hlt (hi & hl & hsum & hit & hL). unfold fastpam1_iteration.
      cbn [p_med p_data p_rl p_loss p_swaps p_iter].
      set (st1 := mkP (p_med st) (p_data st) (p_rl st) (p_loss st) (p_swaps st) (S (p_iter st))).
      pose proof hi as [[i1 i2 i3] hnd hown].
      assert (hp1 : p_inv n D k st1) by (constructor; auto).
      assert (hi1 : pf_inv n D k st1) by (constructor; auto).
      assert (hu : oks (update_removal_loss (p_data st) (p_rl st)) (fun rl => length rl = length (p_med st) /\ rl_near (p_data st) rl)).
      { apply update_removal_loss_near; auto. congruence. }
      apply oks_inv in hu as (rl & -> & hrl & hrn). cbn [bind].
      eapply oks_bind with (P := fun best => best_new n st1 best /\ best_near (p_med st) n best).
      + rewrite (len_n HM). apply foldM_seq with (I := fun t best => best_new n st1 best /\ best_near (p_med st) t best).
        * split; [reflexivity|apply best_near_0].
        * intros j best hj [h1 h2]. apply oks_and.
          -- apply (fastpam1_cand_new HD) with (k := k) (st := st1); auto; lia.
          -- apply fastpam1_cand_near with (k := k) (st := st1); auto; lia.
      + intros best [h1 h2].
        pose proof (swap_best_near rl hi1 h1 hsum h2) as g2.
        eapply oks_mono; [exact g2|].
        intros [s|s] q; cbn [p_iter p_loss st1] in q.
        * destruct q as (q1 & q2 & q3 & q4 & q5). split; [exact q1|]. split; [congruence|]. split; [exact q2|]. split; [congruence|lra].
        * destruct q as (q4 & q5 & q6). split; [rewrite q5; auto|]. split; [apply stopped_le with k; auto|auto].
    - intros s (h1 & h2 & h3 & h4 & h5). split; [auto|]. split; [|lia].
      destruct h3 as [_ [l1 l2]]. pose proof eps_err as hee. pose proof err_pos as hep. lra.
  Qed.

  Lemma pam_near k maxiter (st : pst Nt Lt) :
    pf_inv n D k st -> near_loss st -> p_iter st = 0%nat ->
    oks (whileM maxiter (pam_iteration M) st) (ended k maxiter (p_loss st)).
  Proof.
    intros hi hsum hit. remember (p_loss st) as L0 eqn:eL.
    apply whileM_oks with (I := fun i s => pf_inv n D k s /\
      near_loss s /\ p_iter s = i /\ lval (p_loss s) <= lval L0).
    - rewrite <- eL. repeat split; auto; try apply hi; try apply hsum. lra.
    - clear st hi hsum hit eL. intros i st hlt (hi & hsum & hit & hL). unfold pam_iteration.
      cbn [p_med p_data p_rl p_loss p_swaps p_iter].
      set (st1 := mkP (p_med st) (p_data st) (p_rl st) (p_loss st) (p_swaps st) (S (p_iter st))).
      pose proof hi as [[i1 i2 i3] hnd hown].
      assert (hp1 : p_inv n D k st1) by (constructor; auto).
      assert (hi1 : pf_inv n D k st1) by (constructor; auto).
      eapply oks_bind with (P := fun best => best_new n st1 best /\ best_near (p_med st) n best).
      + rewrite (len_n HM). apply foldM_seq with (I := fun t best => best_new n st1 best /\ best_near (p_med st) t best).
        * split; [reflexivity|apply best_near_0].
        * intros j best hj [h1 h2]. apply oks_and.
          -- apply (pam_cand_new HD) with (k := k) (st := st1); auto; lia.
          -- apply pam_cand_near with (k := k) (st := st1); auto; lia.
      + intros best [h1 h2].
        pose proof (swap_best_near (p_rl st) hi1 h1 hsum h2) as g2.
        eapply oks_mono; [exact g2|].
        intros [s|s] q; cbn [p_iter p_loss st1] in q.
        * destruct q as (q1 & q2 & q3 & q4 & q5). split; [exact q1|]. split; [exact q2|]. split; [congruence|lra].
        * destruct q as (q4 & q5 & q6). split; [rewrite q5; auto|]. split; [apply stopped_le with k; auto|auto].
    - intros s (h1 & h3 & h4 & h5). split; [auto|]. split; [|lia].
      destruct h3 as [_ [l1 l2]]. pose proof eps_err as hee. pose proof err_pos as hep. lra.
  Qed.

  (** ** fasterpam *)
  Record core (k : nat) (s : fpst Nt Lt) : Prop := {
    co_inv : fp_inv n D k s;
    co_rl : rl_near (fp_data s) (fp_rl s);
    co_sum : bracketed (losses (fp_data s)) (fp_loss s)
  }.

  Definition no_gain (E : Q) (med : list nat) (j : nat) : Prop := forall c, (c < length med)%nat -> - E <= delta n D med c j.

  Lemma no_gain_medoid E med j : 0 <= E -> In j med -> no_gain E med j.
  Proof. intros hE hj c hc. pose proof (@delta_medoid med c j hc hj). lra. Qed.

  Lemma nearly_no_gain E med : (forall j, (j < n)%nat -> no_gain E med j) -> nearly E med.
  Proof. intros h b j hb hj. specialize (h j hj b hb). unfold delta in h. lra. Qed.

  (** what happens to a state when candidate [j] is considered, with changes evaluated up to an error of [E] *)
  Definition cand_near (E : Q) (k : nat) (s : fpst Nt Lt) (j : nat) (c : ctl (fpst Nt Lt)) : Prop :=
    match c with
    | Break s' => s' = s /\ j = fp_last s
    | Next s' => core k s' /\ fp_iter s' = fp_iter s /\ j <> fp_last s /\
        ((s' = s /\ no_gain E (fp_med s) j) \/
         (fp_last s' = j /\ fp_swaps s' = S (fp_swaps s) /\ In j (fp_med s') /\
          tdev v n (fp_med s') <= tdev v n (fp_med s) + E))
    end.

  Lemma fp_cand_near k s j : (1 <= k)%nat -> (j < n)%nat -> core k s -> oks (fp_cand M s j) (cand_near err k s j).
  Proof.
    intros hk hj [g1 g2 g3]. pose proof err_pos as hep. pose proof g1 as [i1 i2 i3 i4].
    eapply oks_mono; [apply (fp_cand_ok HM Hn hk hj g1)|].
    intros c hc.
    assert (hfb : forall change b, find_best_swap M (fp_rl s) (fp_data s) j = Ok (change, b) -> slot_near (fp_med s) j (change, b)).
    { intros change b e.
      assert (hl : length (fp_rl s) = length (fp_med s)) by congruence.
      assert (hk' : (1 <= length (fp_med s))%nat) by lia.
      pose proof (find_best_swap_near i2 i3 hl hk' hj g2) as hb.
      apply oks_elim with (2 := e) in hb. exact hb. }
    destruct hc as [e1|r a e1 e2 e3 e4|ch b e1 e2 e3|r a ch b data' rl' loss' e1 e2 e3 e4 e5 e6 e7 e8 e9].
    - split; auto.
    - split; [constructor; auto|]. split; [auto|]. split; [auto|]. left. split; [auto|].
      apply no_gain_medoid; [auto|]. rewrite <- e4. apply nth_In.
      destruct (rec2_near (proj2 i3 j r e2)) as (a' & ea & ha). congruence.
    - split; [constructor; auto|]. split; [auto|]. split; [auto|]. left. split; [auto|].
      intros c hc. destruct (hfb _ _ e2) as (b1 & b2 & b3 & b4). cbn [fst snd] in *.
      apply fmt_lleb in e3; [|exact fmt_zero|auto]. rewrite fmt_zero_val in e3. specialize (b4 c hc). lra.
    - destruct (hfb _ _ e5) as (b1 & b2 & [b3 b3'] & b4). cbn [fst snd] in *.
      apply fmt_lleb_false in e6; [|exact fmt_zero|auto]. rewrite fmt_zero_val in e6.
      pose proof (fp_inv_swap HM (fp_iter s) (S (fp_swaps s)) j Hn hk hj g1 e7 e8 e9) as hi.
      pose proof (do_swap_ok (Lt := Lt) HM Hn i2 hj e7 i3) as hs1.
      apply oks_elim with (2 := e8) in hs1. destruct hs1 as (_ & s1 & s2 & s3 & s4).
      split; [constructor; auto; cbn [fp_med fp_data fp_rl fp_loss]|].
      + assert (hl : length (fp_rl s) = length (set_nth (fp_med s) b j)) by (rewrite length_set_nth; congruence).
        pose proof (update_removal_loss_near (fp_rl s) (inr_set_nth b i2 hj) s1 hl) as hu.
        apply oks_elim with (2 := e9) in hu. apply hu.
      + apply near_sum_bracketed. rewrite <- s2. symmetry. apply near_sum0_near_sum; auto. intros q hq. rewrite (s3 q hq). auto.
      + split; [auto|]. split; [auto|]. right. cbn [fp_med fp_last fp_swaps]. split; [auto|]. split; [auto|]. split.
        * rewrite <- (nth_set_nth_eq (fp_med s) j 0%nat e7) at 1. apply nth_In. rewrite length_set_nth. auto.
        * unfold delta in b3, b3'. rewrite swap_set_nth in b3, b3' by auto. lra.
  Qed.

  (** one pass over the candidates, as in [fp_iteration] and [par_iteration] *)
  Definition pass (cand : fpst Nt Lt -> nat -> res (ctl (fpst Nt Lt))) (order : list nat) (st : fpst Nt Lt)
    : res (ctl (fpst Nt Lt)) :=
    st' <- forM cand order (mkFp (fp_med st) (fp_data st) (fp_rl st) (fp_loss st) (fp_last st) (fp_swaps st) (S (fp_iter st))) ;;
    if (fp_swaps st' =? fp_swaps st)%nat || lleb (fp_loss st) (fp_loss st') then Ok (Break st') else Ok (Next st').

  Section Order.
    Variable k : nat.
    Hypothesis hk : (1 <= k)%nat.
    Variable E : Q.
    Hypothesis hep : 0 <= E.
    Variable cand : fpst Nt Lt -> nat -> res (ctl (fpst Nt Lt)).
    Hypothesis Hcand : forall s j, (j < n)%nat -> core k s -> oks (cand s j) (cand_near E k s j).
    Variable order : list nat.
    Hypothesis Ho : forall j, In j order -> (j < n)%nat.
    Hypothesis Hnd : NoDup order.
    Hypothesis Hall : forall j, (j < n)%nat -> In j order.

    (** between the passes: the candidates after the last one swapped in have been tried with these medoids *)
    Definition tried_after (s : fpst Nt Lt) : Prop :=
      fp_last s = n \/ exists pre post, order = pre ++ fp_last s :: post /\ In (fp_last s) (fp_med s) /\
        forall j, In j post -> no_gain E (fp_med s) j.

    Lemma NoDup_split A (l1 l2 m1 m2 : list A) x : NoDup (l1 ++ x :: l2) -> l1 ++ x :: l2 = m1 ++ x :: m2 -> l1 = m1 /\ l2 = m2.
    Proof.
      revert m1. induction l1 as [|y l1 IH]; intros [|z m1] hn e; cbn in *.
      - injection e. auto.
      - injection e as -> ->. inversion hn; subst. exfalso. apply H2. apply in_or_app. simpl. auto.
      - injection e as -> <-. inversion hn; subst. exfalso. apply H2. apply in_or_app. simpl. auto.
      - injection e as -> e. inversion hn; subst. destruct (IH m1 H3 e) as [-> ->]. auto.
    Qed.

    Lemma fp_pass_near s0 : core k s0 -> tried_after s0 ->
      oks (forM cand order s0) (fun s => core k s /\ fp_iter s = fp_iter s0 /\ (fp_swaps s0 <= fp_swaps s)%nat /\
        tdev v n (fp_med s) <= tdev v n (fp_med s0) + cnt n * E /\
        (fp_swaps s = fp_swaps s0 -> forall j, (j < n)%nat -> no_gain E (fp_med s) j) /\
        (fp_swaps s <> fp_swaps s0 -> tried_after s)).
    Proof.
      intros hc0 ht0.
      assert (hlen : (length order <= n)%nat).
      { rewrite <- (seq_length n 0). apply NoDup_incl_length; auto. intros j hj. apply in_seq. pose proof (Ho j hj). lia. }
      assert (hcn : forall l, (length l <= length order)%nat -> cnt (@length nat l) * E <= cnt n * E).
      { intros l hl. apply Qmult_le_compat_r; [apply cnt_le; lia|auto]. }
      apply forM_oks with (I := fun pre s => core k s /\ fp_iter s = fp_iter s0 /\ (fp_swaps s0 <= fp_swaps s)%nat /\
        tdev v n (fp_med s) <= tdev v n (fp_med s0) + cnt (length pre) * E /\
        (fp_swaps s = fp_swaps s0 -> fp_med s = fp_med s0 /\ fp_last s = fp_last s0 /\ forall j, In j pre -> no_gain E (fp_med s) j) /\
        (fp_swaps s <> fp_swaps s0 -> exists p1 p2, pre = p1 ++ fp_last s :: p2 /\ In (fp_last s) (fp_med s) /\
           forall j, In j p2 -> no_gain E (fp_med s) j)).
      - split; [auto|]. split; [auto|]. split; [auto|]. split; [change (cnt (length (@nil nat))) with 0; lra|].
        split; [|congruence]. intros _. split; [auto|]. split; [auto|]. intros j [].
      - intros pre j post s e (h1 & h2 & h3 & h4 & h5 & h6).
        assert (hj : (j < n)%nat) by (apply Ho; rewrite e; apply in_or_app; simpl; auto).
        assert (hnd' : NoDup (pre ++ j :: post)) by (rewrite <- e; auto).
        eapply oks_mono; [apply (Hcand hj h1)|].
        intros [s'|s'].
        + intros (q1 & q2 & q3 & q4). split; [auto|]. split; [congruence|].
          rewrite app_length. cbn [length]. rewrite cnt_add. change (cnt 1) with 1.
          destruct q4 as [[-> q4]|(q4 & q5 & q6 & q7)].
          * split; [auto|]. split; [lra|]. split.
            -- intros es. destruct (h5 es) as (a1 & a2 & a3). split; [auto|]. split; [auto|].
               intros i hi. apply in_app_or in hi as [hi|[<-|[]]]; auto.
            -- intros es. destruct (h6 es) as (p1 & p2 & a1 & a2 & a3). exists p1, (p2 ++ [j]).
               split; [rewrite a1, <- app_assoc; reflexivity|]. split; [auto|].
               intros i hi. apply in_app_or in hi as [hi|[<-|[]]]; auto.
          * split; [lia|]. split; [lra|]. split; [intros; lia|]. intros _. exists pre, []. rewrite q4.
            split; [auto|]. split; [auto|]. intros i [].
        + intros [-> ej]. split; [auto|]. split; [auto|]. split; [auto|].
          split; [specialize (hcn pre ltac:(rewrite e, app_length; lia)); lra|]. split.
          * intros es. destruct (h5 es) as (a1 & a2 & a3).
            destruct ht0 as [ht0|(p1 & p2 & b1 & b2 & b3)]; [lia|].
            rewrite <- a2, <- ej in b1. rewrite b1 in e. 
            apply NoDup_split in e as [-> ->]; [|rewrite <- b1; auto].
            intros i hi. pose proof (Hall hi) as hio. rewrite b1 in hio. apply in_app_or in hio as [hin|[<-|hin]].
            -- apply a3; auto.
            -- apply no_gain_medoid; [auto|]. rewrite ej, a2, a1. auto.
            -- rewrite a1. apply b3; auto.
          * intros es. destruct (h6 es) as (p1 & p2 & a1 & a2 & a3). exfalso.
            apply NoDup_remove_2 in hnd'. apply hnd', in_or_app. left. rewrite a1, ej. apply in_or_app. simpl. auto.
      - intros s (h1 & h2 & h3 & h4 & h5 & h6). split; [auto|]. split; [auto|]. split; [auto|].
        split; [specialize (hcn order (le_n _)); lra|]. split.
        + intros es j hj. destruct (h5 es) as (_ & _ & a3). apply a3. apply Hall; auto.
        + intros es. right. destruct (h6 es) as (p1 & p2 & a1 & a2 & a3). exists p1, p2. auto.
    Qed.

    Lemma fp_run_near maxiter s0 : core k s0 -> fp_last s0 = n -> fp_swaps s0 = 0%nat -> fp_iter s0 = 0%nat ->
      oks (whileM maxiter (pass cand order) s0) (fun s =>
        tdev v n (fp_med s) <= lval (fp_loss s0) + lerr + cnt n * E /\
        (fp_swaps s = 0%nat -> (1 <= maxiter)%nat -> nearly E (fp_med s)) /\
        ((fp_iter s < maxiter)%nat -> nearly E (fp_med s) \/
           exists i s1, fp_iter s = S i /\ whileM i (pass cand order) s0 = Ok s1 /\
             lval (fp_loss s1) <= lval (fp_loss s))).
    Proof.
      intros hc0 hl0 hs0 hi0.
      assert (hce : 0 <= cnt n * E) by (apply Qmult_le_0_compat; [apply cnt_pos|auto]).
      apply whileM_oks with (I := fun i s => reach (pass cand order) s0 i s /\ core k s /\ tried_after s /\ fp_iter s = i /\
        lval (fp_loss s) <= lval (fp_loss s0) /\ (i = 0%nat \/ (1 <= fp_swaps s)%nat)).
      - split; [constructor|]. split; [auto|]. split; [left; auto|]. split; [auto|]. split; [lra|auto].
      - intros i st hlt (r1 & r2 & r3 & r4 & r5 & r6).
        pose proof (bracketed_close (fi_inr (co_inv r2)) (fi_data (co_inv r2)) (co_sum r2)) as [lf [l1 l2]].
        apply oks_mono with (P := fun c => pass cand order st = Ok c /\ match c with
          | Next s' => core k s' /\ tried_after s' /\ fp_iter s' = S i /\ lval (fp_loss s') <= lval (fp_loss st) /\ (1 <= fp_swaps s')%nat
          | Break s' => fp_iter s' = S i /\ tdev v n (fp_med s') <= lval (fp_loss st) + lerr + cnt n * E /\
              (fp_swaps s' = 0%nat -> nearly E (fp_med s')) /\
              (nearly E (fp_med s') \/ lval (fp_loss st) <= lval (fp_loss s'))
          end).
        + apply oks_self. unfold pass.
          set (st1 := mkFp (fp_med st) (fp_data st) (fp_rl st) (fp_loss st) (fp_last st) (fp_swaps st) (S (fp_iter st))).
          assert (hc1 : core k st1).
          { destruct r2 as [[a1 a2 a3 a4] b c]. constructor; auto. constructor; auto. }
          assert (ht1 : tried_after st1) by exact r3.
          eapply oks_bind; [apply (fp_pass_near hc1 ht1)|].
          intros s (h1 & h2 & h3 & h4 & h5 & h6). cbn [fp_iter fp_swaps fp_med st1] in *.
          pose proof (bracketed_close (fi_inr (co_inv h1)) (fi_data (co_inv h1)) (co_sum h1)) as [lf' _].
          assert (hno : (fp_swaps s =? fp_swaps st)%nat = true -> nearly E (fp_med s)).
          { intros e. apply Nat.eqb_eq in e. apply nearly_no_gain. auto. }
          destruct ((fp_swaps s =? fp_swaps st)%nat || lleb (fp_loss st) (fp_loss s)) eqn:e; cbn [oks].
          * split; [congruence|]. split; [lra|]. split.
            -- intros e0. apply hno. apply Nat.eqb_eq. lia.
            -- apply orb_true_iff in e as [e|e]; [left; auto|right]. apply fmt_lleb in e; auto.
          * apply orb_false_iff in e as [e1 e2]. apply Nat.eqb_neq in e1. apply fmt_lleb_false in e2; auto.
            split; [auto|]. split; [auto|]. split; [congruence|]. split; [lra|lia].
        + intros [s|s] [hb q].
          * destruct q as (q1 & q2 & q3 & q4 & q5). split; [econstructor; eauto|]. split; [auto|]. split; [auto|]. split; [auto|]. split; [lra|auto].
          * destruct q as (q1 & q2 & q3 & q4). split; [lra|]. split; [auto|]. intros _. destruct q4 as [q4|q4]; [auto|].
            right. exists i, st. split; [auto|]. split; [|auto].
            pose proof (reach_while r1 0) as hw. rewrite Nat.add_0_r in hw. rewrite hw. reflexivity.
      - intros s (r1 & r2 & r3 & r4 & r5 & r6).
        pose proof (bracketed_close (fi_inr (co_inv r2)) (fi_data (co_inv r2)) (co_sum r2)) as [lf [l1 l2]].
        split; [lra|]. split; [intros; lia|intros; lia].
    Qed.
  End Order.
End Swap.
