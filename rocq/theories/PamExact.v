(** PamExact.v -- exact arithmetic: what the swap evaluation of fasterpam.rs computes. *)
From Coq Require Import ZArith QArith Lqa Lia.
From Verif Require Import Base Num M_Mat M_Util M_Fasterpam Hoare Spec SpecFacts Laws PamShape.
Set Implicit Arguments.
Open Scope nat_scope.

Lemma swap_set_nth (med : list nat) b j : b < length med -> swap med b j = set_nth med b j.
Proof.
  unfold swap. revert b. induction med as [|m med IH]; intros b hb; simpl in *; [lia|].
  destruct b; simpl; auto. f_equal. rewrite <- IH by lia. auto.
Qed.

Section Exact.
  Context {Nt Lt : Type} `{HLL : LossLaws Nt Lt}.
  Variable M : Mat Nt.
  Variable n : nat.
  Variable D : nat -> nat -> Nt.
  Hypothesis HD : diss_matrix M n D.

  Let v := vals D.
  Let HM : is_matrix M n D := proj1 HD.
  Let Hemb : Emb n D v := proj1 (emb_vals HD).
  Let Hdg : Dg n D := proj2 (emb_vals HD).

  Lemma okD x y : x < n -> y < n -> okN (D x y).
  Proof. intros hx hy. apply HD; auto. Qed.

  Lemma vL_D x y : x < n -> y < n -> (vL (lfrom (D x y)) == v x y)%Q.
  Proof. intros hx hy. apply vL_from. apply okD; auto. Qed.

  Lemma vL_nzero : (vL (lfrom (nzero : Nt)) == 0)%Q.
  Proof. rewrite vL_from by apply okN_zero. apply vN_zero. Qed.

  (** ** sums *)
  Lemma fold_left_sum (l : list Lt) x :
    (vL (fold_left ladd l x) == vL x + sumQ vL l)%Q.
  Proof.
    revert x. induction l as [|y l IH]; intros x; simpl; [lra|]. rewrite IH, vL_add. lra.
  Qed.

  Lemma reduce_sum (l : list Lt) x : reduce ladd l = Some x -> (vL x == sumQ vL l)%Q.
  Proof.
    destruct l as [|y l]; simpl; [discriminate|]. intros h. injection h as <-.
    apply fold_left_sum.
  Qed.

  (** the record of object [o] under exact comparisons *)
  Definition rec_x (med : list nat) (o : nat) (r : Rec Nt) (a s : nat) : Prop :=
    a < length med /\ s < length med /\ a <> s /\ di (near r) = Some a /\ di (seco r) = Some s /\
    dd (near r) = D o (nth a med 0) /\ dd (seco r) = D o (nth s med 0) /\
    two_min v med o (length med) a s.

  Lemma rec2_x med o r : rec2 n D (length med) med o r -> exists a s, rec_x med o r a s.
  Proof.
    intros (a & s & h1 & h2 & h3 & [h4 h5] & [h6 h7] & h8). exists a, s.
    unfold rec_x. auto 10.
  Qed.

  Lemma rec_x_near med o r a s : rec_x med o r a s ->
    (mindist v o med == v o (nth a med 0%nat))%Q /\ nearest v o med a.
  Proof.
    intros (h1 & h2 & h3 & h4 & h5 & h6 & h7 & [h8 h9]).
    assert (hn : nearest v o med a) by (split; auto).
    split; auto. apply nearest_mindist. auto.
  Qed.

  (** effect of a swap on the distance of one object to its nearest medoid *)
  Lemma mindist_swap med o r a s b j : rec_x med o r a s -> b < length med ->
    (mindist v o (swap med b j) ==
     if b =? a then (if Qlt_le_dec (v o j) (v o (nth s med 0%nat)) then v o j else v o (nth s med 0%nat))
     else (if Qlt_le_dec (v o j) (v o (nth a med 0%nat)) then v o j else v o (nth a med 0%nat)))%Q.
  Proof.
    intros (h1 & h2 & h3 & _ & _ & _ & _ & [m1 m2]) hb.
    rewrite swap_set_nth by auto.
    assert (hl : length (set_nth med b j) = length med) by apply length_set_nth.
    assert (hnb : nth b (set_nth med b j) 0 = j) by (apply nth_set_nth_eq; auto).
    assert (hnc : forall c, c <> b -> nth c (set_nth med b j) 0 = nth c med 0)
      by (intros; apply nth_set_nth_neq; auto).
    destruct (b =? a) eqn:e; [apply Nat.eqb_eq in e; subst b|apply Nat.eqb_neq in e].
    - destruct (Qlt_le_dec (v o j) (v o (nth s med 0))) as [hlt|hle].
      + apply mindist_unique with (a := a); rewrite ?hl, ?hnb; auto; [reflexivity|].
        intros c hc. destruct (Nat.eq_dec c a) as [->|hne]; [rewrite hnb; lra|].
        rewrite hnc by auto. specialize (m2 c hc hne). lra.
      + apply mindist_unique with (a := s); rewrite ?hl, ?hnc; auto; [reflexivity|].
        intros c hc. destruct (Nat.eq_dec c a) as [->|hne]; [rewrite hnb; lra|].
        rewrite hnc by auto. apply m2; auto.
    - destruct (Qlt_le_dec (v o j) (v o (nth a med 0))) as [hlt|hle].
      + apply mindist_unique with (a := b); rewrite ?hl, ?hnb; auto; [reflexivity|].
        intros c hc. destruct (Nat.eq_dec c b) as [->|hne]; [rewrite hnb; lra|].
        rewrite hnc by auto. specialize (m1 c hc). lra.
      + apply mindist_unique with (a := a); rewrite ?hl, ?hnc; auto; [reflexivity|].
        intros c hc. destruct (Nat.eq_dec c b) as [->|hne]; [rewrite hnb; lra|].
        rewrite hnc by auto. apply m1; auto.
  Qed.

  (** ** losses as sums over the objects *)
  Lemma sumQ_enum (data : list (Rec Nt)) (f : nat -> Q) :
    length data = n -> sumQ f (seq 0 n) = sumQ (fun p => f (fst p)) (enum data).
  Proof.
    intros h. rewrite <- h, <- map_fst_enum, sumQ_map. auto.
  Qed.

  Lemma near_sum_tdev med data loss :
    inr n med -> data_ok n D med data -> near_sum data = Some loss ->
    (vL loss == tdev v n med)%Q.
  Proof.
    intros hin [hl hd] hs. apply reduce_sum in hs. rewrite hs.
    unfold tdev. rewrite (sumQ_enum data) by auto. rewrite sumQ_map.
    rewrite <- (map_snd_enum data) at 1. rewrite sumQ_map. apply sumQ_ext.
    intros [o r] h. apply In_enum in h. simpl.
    assert (ho : o < n) by (rewrite <- hl; apply nth_error_lt with (1 := h)).
    destruct (rec2_x (hd o r h)) as (a & s & hx).
    destruct (rec_x_near hx) as [-> _].
    destruct hx as (h1 & _ & _ & _ & _ & -> & _).
    apply vL_D; auto. apply hin. apply nth_In. auto.
  Qed.

  Lemma near_sum0_tdev med data loss b j :
    inr n med -> data_ok n D med data -> near_sum0 j data = Some loss ->
    (forall r, nth_error data j = Some r -> near r = DP (Some b) nzero) ->
    (vL loss == tdev v n med)%Q.
  Proof.
    intros hin [hl hd] hs hj. apply reduce_sum in hs. rewrite hs.
    unfold tdev. rewrite (sumQ_enum data) by auto. rewrite sumQ_map. apply sumQ_ext.
    intros [o r] h. apply In_enum in h. simpl.
    assert (ho : o < n) by (rewrite <- hl; apply nth_error_lt with (1 := h)).
    destruct (rec2_x (hd o r h)) as (a & s & hx).
    destruct (rec_x_near hx) as [-> _].
    destruct hx as (h1 & _ & _ & _ & _ & hdd & _).
    destruct (o =? j) eqn:e.
    - apply Nat.eqb_eq in e. subst o. rewrite (hj r h) in hdd. simpl in hdd.
      rewrite vL_zero. unfold v, vals. rewrite <- hdd. rewrite vN_zero. reflexivity.
    - rewrite hdd. apply vL_D; auto. apply hin. apply nth_In. auto.
  Qed.

  (** ** removal loss *)
  Lemma vL_add_at (l : list Lt) i x c :
    i < length l ->
    (vL (nth c (set_nth l i (ladd (nth i l lzero) x)) lzero) ==
     vL (nth c l lzero) + (if (i =? c)%nat then vL x else 0))%Q.
  Proof.
    intros hi. destruct (Nat.eq_dec c i) as [->|hne].
    - rewrite nth_set_nth_eq, Nat.eqb_refl, vL_add by auto. lra.
    - rewrite nth_set_nth_neq by auto. replace (i =? c) with false; [lra|].
      symmetry. apply Nat.eqb_neq. auto.
  Qed.

  Lemma nth_repeat_zero k c : nth c (repeat lzero k) lzero = (lzero : Lt).
  Proof. revert c. induction k; destruct c; simpl; auto. Qed.

  (** loss increase of removing medoid [c] caused by one record *)
  Definition rem_of (c : nat) (r : Rec Nt) : Q :=
    if as_usize (di (near r)) =? c then (vN (dd (seco r)) - vN (dd (near r)))%Q else 0%Q.

  Definition rl_ok (data : list (Rec Nt)) (rl : list Lt) : Prop :=
    forall c, (vL (nth c rl lzero) == sumQ (rem_of c) data)%Q.

  Lemma update_removal_loss_ok med data (rl : list Lt) :
    inr n med -> data_ok n D med data -> length rl = length med ->
    oks (update_removal_loss data rl) (fun rl' => length rl' = length med /\ rl_ok data rl').
  Proof.
    intros hin [hl hd] hrl. unfold update_removal_loss.
    apply foldM_oks with (I := fun pre (s : list Lt) =>
      length s = length med /\ forall c, (vL (nth c s lzero) == sumQ (rem_of c) pre)%Q).
    - split; [rewrite repeat_length; auto|]. intros c. rewrite nth_repeat_zero. apply vL_zero.
    - intros pre r post s e [hs1 hs2].
      assert (hr : nth_error data (length pre) = Some r).
      { rewrite e, nth_error_app2, Nat.sub_diag; auto. }
      assert (ho : length pre < n) by (rewrite <- hl; apply nth_error_lt with (1 := hr)).
      destruct (rec2_x (hd _ _ hr)) as (a & b & hx).
      destruct hx as (h1 & h2 & h3 & h4 & h5 & h6 & h7 & _).
      rewrite h4. cbn [as_usize]. rewrite add_at_ok by lia. cbn [oks].
      split; [rewrite length_set_nth; auto|].
      intros c. rewrite vL_add_at by lia. rewrite hs2, sumQ_app. simpl.
      unfold rem_of. rewrite h4. cbn [as_usize].
      destruct (a =? c); [|lra]. rewrite vL_sub, h6, h7, !vL_D by auto using inr_nth.
      unfold v, vals. lra.
  Qed.

  (** ** find_min *)
  Lemma find_min_ok (l : list Lt) : l <> [] ->
    oks (find_min l) (fun p => fst p < length l /\ snd p = nth (fst p) l lzero /\
      (forall c, c < length l -> (vL (snd p) <= vL (nth c l lzero))%Q) /\
      (forall c, c < fst p -> (vL (snd p) < vL (nth c l lzero))%Q)).
  Proof.
    destruct l as [|x xs]; [congruence|]. intros _. unfold find_min. cbn [oks].
    pose (Q := fun t (p : nat * Lt) => fst p < t /\ snd p = nth (fst p) (x :: xs) lzero /\
      (forall c, c < t -> (vL (snd p) <= vL (nth c (x :: xs) lzero))%Q) /\
      (forall c, c < fst p -> (vL (snd p) < vL (nth c (x :: xs) lzero))%Q)).
    assert (G : forall ys s best, 1 <= s ->
      (forall i y, nth_error ys i = Some y -> nth_error (x :: xs) (s + i) = Some y) ->
      Q s best ->
      Q (s + length ys) (fold_left (fun (best : nat * Lt) '(ik, iv) =>
                            if lltb iv (snd best) then (ik, iv) else best)
                         (combine (seq s (length ys)) ys) best)).
    { induction ys as [|y ys IH]; intros s best hs hys hq.
      - simpl. rewrite Nat.add_0_r. auto.
      - cbn [length seq combine fold_left]. rewrite <- Nat.add_succ_comm. apply IH; [lia| |].
        + intros i z hz. specialize (hys (S i) z hz). rewrite <- hys. f_equal. lia.
        + assert (e : nth_error (x :: xs) s = Some y).
          { specialize (hys 0 y eq_refl). rewrite Nat.add_0_r in hys. auto. }
          apply nth_error_nth with (d := lzero) in e.
          destruct hq as (q1 & q2 & q3 & q4).
          destruct (lltb y (snd best)) eqn:el.
          * apply lltb_spec in el. split; [simpl; lia|]. split; [simpl fst; simpl snd; auto|].
            simpl fst. simpl snd. split.
            -- intros c hc. destruct (Nat.eq_dec c s) as [->|]; [rewrite e; lra|].
               specialize (q3 c). assert (hcs : c < s) by lia. specialize (q3 hcs). lra.
            -- intros c hc. specialize (q3 c hc). lra.
          * split; [lia|]. split; [auto|]. split; [|auto].
            intros c hc. destruct (Nat.eq_dec c s) as [->|]; [|apply q3; lia].
            rewrite e. apply Qnot_lt_le. intros hlt. apply lltb_spec in hlt. congruence. }
    apply (G xs 1 (0, x)); auto.
    split; [simpl; lia|]. split; [auto|]. simpl fst. simpl snd. split.
    - intros c hc. assert (c = 0) as -> by lia. simpl. lra.
    - intros c hc. lia.
  Qed.

  (** ** find_best_swap *)
  (** change of the part of medoid [c] (including the shared part) for one object *)
  Definition part_of (j c : nat) (p : nat * Rec Nt) : Q :=
    let '(o, r) := p in
    ((if Qlt_le_dec (v o j) (vN (dd (near r))) then v o j - vN (dd (near r)) else 0) +
     (if as_usize (di (near r)) =? c then
        if Qlt_le_dec (v o j) (vN (dd (near r))) then vN (dd (near r)) - vN (dd (seco r))
        else if Qlt_le_dec (v o j) (vN (dd (seco r))) then v o j - vN (dd (seco r)) else 0
      else 0))%Q.

  Lemma nltb_dec x y x' y' : x < n -> y < n -> x' < n -> y' < n ->
    nltb (D x y) (D x' y') = if Qlt_le_dec (v x y) (v x' y') then true else false.
  Proof.
    intros h1 h2 h3 h4. destruct (Qlt_le_dec (v x y) (v x' y')) as [h|h].
    - apply (proj1 Hemb); auto.
    - destruct (nltb (D x y) (D x' y')) eqn:e; auto.
      apply (proj1 Hemb) in e; auto. lra.
  Qed.

  (** the losses accumulated for all [c]: the change of the total deviation *)
  Lemma part_delta med data j c :
    inr n med -> j < n -> c < length med -> data_ok n D med data ->
    (sumQ (rem_of c) data + sumQ (part_of j c) (enum data) == tdev v n (swap med c j) - tdev v n med)%Q.
  Proof.
    intros hin hj hc [hl hd]. unfold tdev. rewrite !(sumQ_enum data) by auto.
    rewrite <- (map_snd_enum data) at 1. rewrite sumQ_map.
    rewrite <- sumQ_plus, <- sumQ_minus. apply sumQ_ext.
    intros [o r] h. apply In_enum in h. cbn [fst snd].
    destruct (rec2_x (hd o r h)) as (a & s & hx).
    rewrite (mindist_swap j hx hc). destruct (rec_x_near hx) as [-> _].
    destruct hx as (h1 & h2 & h3 & h4 & h5 & h6 & h7 & [m1 m2]).
    assert (hle := m1 s h2).
    unfold rem_of, part_of. rewrite h4, h6, h7. cbn [as_usize].
    change (vN (D o (nth a med 0))) with (v o (nth a med 0)).
    change (vN (D o (nth s med 0))) with (v o (nth s med 0)).
    rewrite (Nat.eqb_sym c a).
    destruct (a =? c);
      destruct (Qlt_le_dec (v o j) (v o (nth a med 0)));
      destruct (Qlt_le_dec (v o j) (v o (nth s med 0))); lra.
  Qed.

  Lemma fbs_fold med data j (l : list (nat * Rec Nt)) (pl0 : list Lt) acc0 :
    inr n med -> data_ok n D med data -> length pl0 = length med -> j < n ->
    (forall o r, In (o, r) l -> nth_error data o = Some r) ->
    oks (foldM (fbs_step M j) l (pl0, acc0)) (fun st => length (fst st) = length med /\
      forall c, (vL (nth c (fst st) lzero) + vL (snd st) ==
                 vL (nth c pl0 lzero) + vL acc0 + sumQ (part_of j c) l)%Q).
  Proof.
    intros hin hdata hpl hj hl0. pose proof hdata as [hl hd].
    apply foldM_oks with (I := fun pre (st : list Lt * Lt) =>
        length (fst st) = length med /\
        forall c, (vL (nth c (fst st) lzero) + vL (snd st) ==
                   vL (nth c pl0 lzero) + vL acc0 + sumQ (part_of j c) pre)%Q).
    - split; [auto|]. intros c. simpl. lra.
    - intros pre [o r] post [pl acc] e [hs1 hs2]. cbn [fst snd] in hs1, hs2.
      assert (hr : nth_error data o = Some r).
      { apply hl0. rewrite e. apply in_or_app. simpl. auto. }
      assert (ho : o < n) by (rewrite <- hl; apply nth_error_lt with (1 := hr)).
      destruct (rec2_x (hd _ _ hr)) as (a & s & hx).
      destruct hx as (h1 & h2 & h3 & h4 & h5 & h6 & h7 & _).
      unfold fbs_step. rewrite (get_ok HM) by auto. cbn [bind]. rewrite h4, h6, h7. cbn [as_usize].
      assert (ha : nth a med 0 < n) by auto using inr_nth.
      assert (hs : nth s med 0 < n) by auto using inr_nth.
      rewrite !nltb_dec by auto.
      assert (P : forall c, (part_of j c (o, r) ==
        (if Qlt_le_dec (v o j) (v o (nth a med 0%nat)) then v o j - v o (nth a med 0%nat) else 0) +
        (if a =? c then
          if Qlt_le_dec (v o j) (v o (nth a med 0%nat)) then v o (nth a med 0%nat) - v o (nth s med 0%nat)
          else if Qlt_le_dec (v o j) (v o (nth s med 0%nat)) then v o j - v o (nth s med 0%nat) else 0
         else 0))%Q).
      { intros c. unfold part_of. rewrite h4, h6, h7. cbn [as_usize].
        change (vN (D o (nth a med 0))) with (v o (nth a med 0)).
        change (vN (D o (nth s med 0))) with (v o (nth s med 0)). lra. }
      destruct (Qlt_le_dec (v o j) (v o (nth a med 0))) as [d1|d1].
      * rewrite add_at_ok by lia. cbn [bind oks fst snd].
        split; [rewrite length_set_nth; auto|].
        intros c. rewrite vL_add_at by lia. rewrite sumQ_app. cbn [sumQ fold_right]. rewrite P.
        specialize (hs2 c). destruct (a =? c); rewrite ?vL_add, ?vL_sub, ?vL_D by auto; lra.
      * destruct (Qlt_le_dec (v o j) (v o (nth s med 0))) as [d2|d2].
        -- rewrite add_at_ok by lia. cbn [bind oks fst snd].
           split; [rewrite length_set_nth; auto|].
           intros c. rewrite vL_add_at by lia. rewrite sumQ_app. cbn [sumQ fold_right]. rewrite P.
           specialize (hs2 c).
           destruct (a =? c); rewrite ?vL_sub, ?vL_D by auto; lra.
        -- cbn [bind oks fst snd]. split; [auto|]. intros c. rewrite sumQ_app.
           cbn [sumQ fold_right]. rewrite P. specialize (hs2 c). destruct (a =? c); lra.
  Qed.

  (** the pair chosen from the final values *)
  Definition best_slot (med : list nat) (j : nat) (p : Lt * nat) : Prop :=
    snd p < length med /\
    (vL (fst p) == tdev v n (swap med (snd p) j) - tdev v n med)%Q /\
    (forall c, c < length med ->
       (tdev v n (swap med (snd p) j) <= tdev v n (swap med c j))%Q) /\
    (forall c, c < snd p ->
       (tdev v n (swap med (snd p) j) < tdev v n (swap med c j))%Q).

  Lemma fbs_choose med j (pl : list Lt) acc : length pl = length med -> 1 <= length med ->
    (forall c, c < length med ->
        (vL (nth c pl lzero) + vL acc == tdev v n (swap med c j) - tdev v n med)%Q) ->
    oks ('(b, bloss) <- find_min pl ;; Ok (ladd bloss acc, b)) (best_slot med j).
  Proof.
    intros hs1 hk hval.
    eapply oks_bind; [apply find_min_ok; intros ->; simpl in hs1; lia|].
    intros [b bl] (q1 & q2 & q3 & q4). cbn [fst snd] in *. rewrite hs1 in *. cbn [oks].
    assert (hb := hval b q1). rewrite <- q2 in hb. unfold best_slot. cbn [fst snd].
    split; [auto|]. split; [rewrite vL_add; auto|]. split.
    - intros c hc. specialize (q3 c hc). specialize (hval c hc). lra.
    - intros c hc. specialize (q4 c hc). assert (hc' : c < length med) by lia.
      specialize (hval c hc'). lra.
  Qed.

  Lemma find_best_swap_ok med data (rl : list Lt) j :
    inr n med -> data_ok n D med data -> length rl = length med -> 1 <= length med -> j < n ->
    rl_ok data rl ->
    oks (find_best_swap M rl data j) (best_slot med j).
  Proof.
    intros hin hdata hrl hk hj hrlok. unfold find_best_swap.
    eapply oks_bind; [apply fbs_fold with (1 := hin) (2 := hdata); auto; intros; apply In_enum; auto|].
    intros [pl acc] [hs1 hs2]. cbn [fst snd] in hs1, hs2.
    apply fbs_choose; auto.
    intros c hc. rewrite hs2. pose proof (hrlok c) as hc'. rewrite hc', vL_zero.
    pose proof (part_delta hin hj hc hdata). lra.
  Qed.
End Exact.
