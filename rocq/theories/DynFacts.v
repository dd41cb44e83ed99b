(** DynFacts.v -- the rounds of dynmsc and what is returned, without assumptions on the arithmetic. *)
From Coq Require Import ZArith QArith Lqa Lia.
From Verif Require Import Base Num M_Mat M_Util M_Fasterpam M_Silhouette M_Msc M_Dynmsc Hoare
  Spec SpecFacts Laws PamShape ChooseFacts FpFacts PamFacts PamMain MscShape MscFacts MscK2 MscMain DynShape.
Set Implicit Arguments.
Open Scope nat_scope.

(** a total preorder described by [<] on the numbers with [P] *)
Definition ord_ok {Lt : Type} `{NumL Lt} (P : Lt -> Prop) (le : Lt -> Lt -> Prop) : Prop :=
  (forall x, P x -> le x x) /\ (forall x y z, P x -> P y -> P z -> le x y -> le y z -> le x z) /\
  (forall x y, P x -> P y -> lltb x y = true -> le x y) /\ (forall x y, P x -> P y -> lltb x y = false -> le y x).

(** the medoid which is dropped has the least entry *)
Lemma min_removal_least {Lt : Type} `{HNL : NumL Lt} (P : Lt -> Prop) (le : Lt -> Lt -> Prop) (rl : list Lt) b :
  ord_ok P le -> (forall x, In x rl -> P x) -> snd (min_removal rl) = Some b ->
  b < length rl /\ forall c, c < length rl -> le (nth b rl lzero) (nth c rl lzero).
Proof.
  intros (o1 & o2 & o3 & o4). unfold min_removal.
  assert (G : forall post pre p, (forall x, In x (pre ++ post) -> P x) ->
    (match snd p with None => pre = [] | Some b => b < length pre /\ fst p = nth b pre lzero /\
       forall c, c < length pre -> le (nth b pre lzero) (nth c pre lzero) end) ->
    let q := fold_left (fun r '(o, v) => if (o =? 0) || lltb v (fst r) then (v, Some o) else r)
            (combine (seq (length pre) (length post)) post) p in
    match snd q with None => pre ++ post = [] | Some b => b < length (pre ++ post) /\ fst q = nth b (pre ++ post) lzero /\
       forall c, c < length (pre ++ post) -> le (nth b (pre ++ post) lzero) (nth c (pre ++ post) lzero) end).
  { induction post as [|x post IH]; intros pre p hP hp; cbn [length seq combine fold_left].
    - cbv zeta. rewrite app_nil_r. auto.
    - assert (e : pre ++ x :: post = (pre ++ [x]) ++ post) by (rewrite <- app_assoc; auto). rewrite e in hP |- *.
      assert (el : S (length pre) = length (pre ++ [x])) by (rewrite app_length; simpl; lia). rewrite el.
      apply IH; [exact hP|]. clear IH e.
      assert (hx : nth (length pre) (pre ++ [x]) lzero = x) by (rewrite app_nth2, Nat.sub_diag; auto).
      assert (px : P x) by (apply hP; rewrite !in_app_iff; simpl; auto).
      assert (pp : forall c, c < length pre -> P (nth c pre lzero)).
      { intros c hc. apply hP. rewrite !in_app_iff. left. left. apply nth_In. auto. }
      destruct (Nat.eqb_spec (length pre) 0) as [e0|e0]; cbn [orb].
      + cbn [fst snd]. rewrite hx. split; [lia|]. split; [auto|]. intros c hc. assert (c = length pre) as -> by lia.
        rewrite hx. auto.
      + destruct (snd p) as [b'|] eqn:ep; [|subst pre; simpl in e0; lia]. destruct hp as (h1 & h2 & h3).
        destruct (lltb x (fst p)) eqn:ex.
        * rewrite h2 in ex. apply o3 in ex; auto. cbn [fst snd]. rewrite hx. split; [lia|]. split; [auto|]. intros c hc.
          destruct (Nat.eq_dec c (length pre)) as [->|]; [rewrite hx; auto|]. rewrite app_nth1 by lia.
          apply o2 with (y := nth b' pre lzero); auto; [apply pp; lia|apply h3; lia].
        * rewrite ep, app_nth1 by auto. split; [lia|]. split; [auto|]. intros c hc.
          destruct (Nat.eq_dec c (length pre)) as [->|]; [|rewrite app_nth1 by lia; apply h3; lia].
          rewrite hx. rewrite h2 in ex. apply o4 in ex; auto. }
  intros hP hb. specialize (G rl [] (lzero, None) hP eq_refl). cbv zeta in G. cbn [length app] in G.
  unfold enum in hb. rewrite hb in G. destruct G as (g1 & _ & g2). auto.
Qed.

Section Shape.
  Context {Nt Lt : Type} `{HNN : NumN Nt} `{HNL : NumL Lt} `{HFN : FromN Nt Lt}.
  Variable M : Mat Nt.
  Variable n : nat.
  Variable D : nat -> nat -> Nt.
  Hypothesis HM : is_matrix M n D.
  Variable med0 : list nat.
  Variable maxiter : nat.

  Local Notation Dg := (Dg n D).
  Local Notation Emb := (Emb n D).
  Local Notation inr := (inr n).
  Local Notation k0 := (length med0).

  (** [removal s med' data' loss']: the medoid taken out after the search ended in [s] *)
  Definition removal (s : mst Nt Lt) (med' : list nat) (data' : list (Reco Nt)) (loss' : Lt) : Prop :=
    exists b, snd (min_removal (m_rl s)) = Some b /\
      remove_med M (m_med s) (m_data s) b = Ok (med', data', loss').

  (** [rounds c s]: the search with [c] medoids ended in [s] *)
  Inductive rounds : nat -> mst Nt Lt -> Prop :=
  | rounds_first loss data rl s :
      initial_assignment3 M med0 = Ok (loss, data) ->
      update_removal_loss3 data (repeat lzero k0) = Ok rl ->
      whileM maxiter (msc_iteration M) (mkM med0 data rl loss n 0 0) = Ok s -> rounds k0 s
  | rounds_next c s b med' data' loss' rl' s' :
      rounds (S c) s -> 3 <= c -> snd (min_removal (m_rl s)) = Some b ->
      remove_med M (m_med s) (m_data s) b = Ok (med', data', loss') ->
      update_removal_loss3 data' (remove_nth (m_rl s) b) = Ok rl' ->
      whileM maxiter (msc_iteration M) (mkM med' data' rl' loss' n 0 0) = Ok s' -> rounds c s'.

  Lemma length_remove_nth A (l : list A) b : b < length l -> length (remove_nth l b) = length l - 1.
  Proof. intros h. unfold remove_nth. rewrite app_length, firstn_length, skipn_length. lia. Qed.

  (** facts about the start and the end of each search; [c = k0 \/ k0 <= 4]: the cached third
      nearest medoids are right *)
  Definition grd (c : nat) : Prop := c = k0 \/ k0 <= 4.

  Record start (c : nat) (s0 : mst Nt Lt) : Prop := {
    so_inv : m_inv n D (grd c) c s0;
    so_rl : exists rl, length rl = c /\ update_removal_loss3 (m_data s0) rl = Ok (m_rl s0);
    so_last : m_last s0 = n;
    so_swaps : m_swaps s0 = 0;
    so_iter : m_iter s0 = 0;
    so_own : forall v, Dg -> Emb v -> NoDup med0 -> NoDup (m_med s0) /\ data3_own (m_med s0) (m_data s0);
    so_sum : ratio_sum (m_data s0) = Some (m_loss s0)
  }.

  Record stage (c : nat) (s : mst Nt Lt) : Prop := {
    sg_le : c <= k0;
    sg_start : exists s0, start c s0 /\ whileM maxiter (msc_iteration M) s0 = Ok s;
    sg_inv : m_inv n D (grd c) c s;
    sg_iter : m_iter s <= maxiter;
    sg_swaps : m_swaps s <= n * m_iter s;
    sg_own : forall v, Dg -> Emb v -> NoDup med0 -> NoDup (m_med s) /\ data3_own (m_med s) (m_data s);
    sg_sum : Dg -> nis_zero (nzero : Nt) = true -> ratio_sum (m_data s) = Some (m_loss s)
  }.

  Lemma start_stage c s0 : 1 <= n -> 3 <= c -> c <= k0 -> start c s0 ->
    exists s, whileM maxiter (msc_iteration M) s0 = Ok s /\ stage c s.
  Proof.
    intros hn hc hle h. pose proof h as [h1 h2 h3 h4 h5 h6 h7].
    assert (hc2 : 2 <= c) by lia.
    pose proof (msc_run_shape HM maxiter hn hc2 h1 h4 h5) as hr.
    apply oks_inv in hr as (s & e & r1 & r2 & r3 & r4 & r5). exists s. split; [auto|].
    constructor; auto.
    - eauto.
    - intros v hg he hnd. destruct (h6 v hg he hnd). eauto.
  Qed.

  Lemma first_start : sizes n k0 -> inr med0 -> 3 <= k0 ->
    exists loss data rl, initial_assignment3 M med0 = Ok (loss, data) /\
      update_removal_loss3 data (repeat lzero k0) = Ok rl /\ start k0 (mkM med0 data rl loss n 0 0).
  Proof.
    intros hs hin hk. assert (hk2 : 2 <= k0) by lia.
    pose proof (initial_assignment3_ok (Lt := Lt) HM (grd k0) hs hin hk2) as h.
    apply oks_inv in h as ([loss data] & e & hd & hsum & hown). cbn [fst snd] in *.
    assert (hrl : oks (update_removal_loss3 data (repeat (lzero : Lt) k0)) (fun rl => length rl = k0)).
    { eapply update_removal_loss3_len; eauto. apply repeat_length. }
    apply oks_inv in hrl as (rl & er & hrl). exists loss, data, rl. split; [auto|]. split; [auto|].
    constructor; auto.
    - constructor; auto.
    - exists (repeat lzero k0). split; [apply repeat_length|auto].
    - cbn. intros v hg he hnd. split; [auto|]. eapply hown; eauto. left. auto.
  Qed.

  Lemma stage_removal c s : 1 <= n -> 3 <= c -> stage c s ->
    exists b med' data' loss', snd (min_removal (m_rl s)) = Some b /\ b < c /\
      remove_med M (m_med s) (m_data s) b = Ok (med', data', loss') /\
      med' = removed (m_med s) b /\ length med' = c - 1 /\ inr med' /\ ratio_sum data' = Some loss' /\
      (forall v, Dg -> Emb v -> NoDup med0 -> NoDup med') /\
      (4 <= c -> exists rl', update_removal_loss3 data' (remove_nth (m_rl s) b) = Ok rl' /\
         start (c - 1) (mkM med' data' rl' loss' n 0 0)).
  Proof.
    intros hn hc hs. destruct (sg_inv hs) as [i1 i2 i3 i4].
    destruct (@min_removal_idx _ _ (m_rl s)) as (b & eb & hb).
    { intros e. rewrite e in i4. simpl in i4. lia. }
    rewrite i4 in hb.
    assert (hb' : b < length (m_med s)) by lia. assert (hc' : 3 <= length (m_med s)) by lia.
    pose proof (remove_med_ok (Lt := Lt) HM hn i2 hb' hc' i3) as h.
    apply oks_inv in h as ([[med' data'] loss'] & er & -> & h2 & h3 & h4 & h5 & h6).
    exists b, (removed (m_med s) b), data', loss'. split; [auto|]. split; [auto|]. split; [auto|]. split; [auto|].
    split; [rewrite length_removed; lia|]. split; [apply removed_inr; auto|]. split; [auto|].
    split. { intros v hg he hnd. apply removed_NoDup; auto. apply (sg_own hs hg he hnd). }
    intros h4c. assert (h5' := h5 ltac:(lia)).
    assert (hd : data3_ok n D (grd (c - 1)) (removed (m_med s) b) data').
    { apply data3_weaken with (2 := h5'). pose proof (sg_le hs). intros [hg|hg]; [lia|].
      split; [right; auto|lia]. }
    assert (hrl : oks (update_removal_loss3 data' (remove_nth (m_rl s) b)) (fun rl => length rl = c - 1)).
    { replace (c - 1) with (length (removed (m_med s) b)) by (rewrite length_removed; lia).
      eapply update_removal_loss3_len; eauto. rewrite length_remove_nth, length_removed; lia. }
    apply oks_inv in hrl as (rl & erl & hrl). exists rl. split; [auto|].
    constructor; cbn [m_med m_data m_rl m_loss m_last m_swaps m_iter]; auto.
    - constructor; cbn; auto. + rewrite length_removed; lia. + apply removed_inr; auto.
    - exists (remove_nth (m_rl s) b). split; [rewrite length_remove_nth; lia|auto].
    - intros v hg he hnd. destruct (sg_own hs hg he hnd). split; [apply removed_NoDup; auto|auto].
  Qed.

  Lemma rounds_stage c s : sizes n k0 -> inr med0 -> 3 <= k0 -> rounds c s -> stage c s.
  Proof.
    intros hs hin hk hr. assert (hn : 1 <= n) by (destruct hs; lia).
    induction hr as [loss data rl s e1 e2 e3|c s b med' data' loss' rl' s' hr IH hc e1 e2 e3 e4].
    - destruct (first_start hs hin hk) as (loss1 & data1 & rl1 & f1 & f2 & f3).
      rewrite e1 in f1. injection f1 as <- <-. rewrite e2 in f2. injection f2 as <-.
      destruct (start_stage hn hk (le_n _) f3) as (s1 & g1 & g2). congruence.
    - assert (hc' : 3 <= S c) by lia.
      destruct (stage_removal hn hc' IH) as (b1 & med1 & data1 & loss1 & f1 & f2 & f3 & f4 & f5 & f6 & f7 & _ & f8).
      rewrite e1 in f1. injection f1 as <-. rewrite e2 in f3. injection f3 as <- <- <-.
      destruct f8 as (rl1 & g1 & g2); [lia|]. rewrite e3 in g1. injection g1 as <-.
      replace (S c - 1) with c in g2 by lia. pose proof (sg_le IH) as hle.
      destruct (start_stage hn hc ltac:(lia) g2) as (s1 & h1 & h2). congruence.
  Qed.

  (** ** the loop *)
  Section Loop.
    Variable mk : nat.
    Hypothesis hs : sizes n k0.
    Hypothesis hin : inr med0.
    Hypothesis hk : 2 <= k0.
    Hypothesis hmk : 1 <= mk <= k0.

    Record d_inv (i : nat) (st : dst Nt Lt) : Prop := {
      di_le : i <= k0;
      di_len : length (y_med st) = k0 - i;
      di_two : 0 < i -> 2 <= k0 - i;
      di_three : 0 < i -> 3 <= k0;
      di_mk : 0 < i -> mk <= S (k0 - i);
      di_prev : (i = 0 /\ initial_assignment3 M med0 = Ok (y_loss st, y_data st) /\ y_med st = med0 /\
                 y_rl st = repeat lzero k0 /\ y_iter st = 0 /\ y_swaps st = 0) \/
                (0 < i /\ exists s b, rounds (S (k0 - i)) s /\ snd (min_removal (m_rl s)) = Some b /\
                   remove_med M (m_med s) (m_data s) b = Ok (y_med st, y_data st, y_loss st) /\
                   y_rl st = remove_nth (m_rl s) b);
      di_one : i = 1 -> exists s, rounds k0 s /\ y_iter st = m_iter s /\ y_swaps st = m_swaps s /\
                 (lltb lzero (to_silhouette M (m_loss s)) = true ->
                  y_best st = to_silhouette M (m_loss s) /\ y_assi st = assignment3_of (m_data s) /\
                  y_meds st = m_med s);
      di_losses : length (y_losses st) = k0 - mk + 1;
      di_done : forall c, mk <= c -> k0 - i < c <= k0 -> exists s, rounds c s /\
                  nth (c - mk) (y_losses st) lzero = to_silhouette M (m_loss s);
      di_todo : forall c, mk <= c -> c <= k0 - i -> nth (c - mk) (y_losses st) lzero = lzero;
      di_best : (y_best st = lzero /\ y_assi st = [0; n] /\ y_meds st = med0) \/
                (exists c s, mk <= c /\ k0 - i < c <= k0 /\ rounds c s /\
                   nth (c - mk) (y_losses st) lzero = y_best st /\
                   y_best st = to_silhouette M (m_loss s) /\ y_assi st = assignment3_of (m_data s) /\
                   y_meds st = m_med s);
      di_ord : forall P le, ord_ok P le -> P lzero -> (forall c s, 3 <= c -> rounds c s -> P (to_silhouette M (m_loss s))) ->
                 P (y_best st) /\ le lzero (y_best st) /\
                 forall c, mk <= c -> k0 - i < c <= k0 -> le (nth (c - mk) (y_losses st) lzero) (y_best st);
      di_iter : y_iter st <= i * maxiter;
      di_swaps : y_swaps st <= n * y_iter st
    }.

    Lemma dyn_round_ok i st : d_inv i st ->
      oks (dyn_round M mk maxiter st) (fun c => match c with
        | Next s => d_inv (S i) s
        | Break s => s = st /\ (k0 - i < 3 \/ k0 - i < mk) end).
    Proof.
      intros [h1 h2 h3 h3' h3'' h4 h5 h6 h7 h8 h9 h10 h11 h12]. assert (hn : 1 <= n) by (destruct hs; lia).
      unfold dyn_round. rewrite h2.
      destruct (negb _) eqn:eb.
      { apply negb_true_iff, andb_false_iff in eb. cbn [oks]. split; [auto|].
        destruct eb as [eb|eb]; apply Nat.leb_gt in eb; auto. }
      apply negb_false_iff, andb_true_iff in eb as [eb1 eb2]. apply Nat.leb_le in eb1, eb2.
      assert (hk3 : 3 <= k0) by lia.
      assert (G : exists rl s, update_removal_loss3 (y_data st) (y_rl st) = Ok rl /\
         whileM maxiter (msc_iteration M) (mkM (y_med st) (y_data st) rl (y_loss st) n 0 0) = Ok s /\
         rounds (k0 - i) s).
      { destruct h4 as [(-> & e1 & e2 & e3 & _)|(hi & s & b & e1 & e2 & e3 & e4)].
        - destruct (first_start hs hin hk3) as (loss1 & data1 & rl1 & f1 & f2 & f3).
          rewrite e1 in f1. injection f1 as <- <-. rewrite e3, e2.
          destruct (start_stage hn hk3 (le_n _) f3) as (s1 & g1 & g2).
          exists rl1, s1. split; [auto|]. split; [auto|]. rewrite Nat.sub_0_r. econstructor; eauto.
        - pose proof (rounds_stage hs hin hk3 e1) as hst.
          assert (hc' : 3 <= S (k0 - i)) by lia.
          destruct (stage_removal hn hc' hst) as (b1 & med1 & data1 & loss1 & f1 & f2 & f3 & f4 & f5 & f6 & f7 & _ & f8).
          rewrite e2 in f1. injection f1 as <-. rewrite e3 in f3. injection f3 as e5 e6 e7.
          destruct f8 as (rl1 & g1 & g2); [lia|]. rewrite <- e5, <- e6, <- e7 in *.
          rewrite e4. replace (S (k0 - i) - 1) with (k0 - i) in g2 by lia.
          destruct (start_stage hn eb1 ltac:(lia) g2) as (s1 & q1 & q2).
          exists rl1, s1. split; [auto|]. split; [auto|]. eapply rounds_next; eauto. }
      destruct G as (rl & s & -> & e & hr). cbn [bind]. rewrite (len_n HM), e. cbn [bind].
      pose proof (rounds_stage hs hin hk3 hr) as hst.
      destruct (stage_removal hn eb1 hst) as (b & med' & data' & loss' & f1 & f2 & f3 & f4 & f5 & f6 & f7 & _ & _).
      rewrite upd_ok by lia. cbn [bind]. rewrite f1, f3. cbn [bind oks].
      set (loss := to_silhouette M (m_loss s)).
      assert (hnew : nth (k0 - i - mk) (set_nth (y_losses st) (k0 - i - mk) loss) lzero = loss)
        by (apply nth_set_nth_eq; lia).
      assert (hold : forall c, mk <= c -> c <> k0 - i ->
        nth (c - mk) (set_nth (y_losses st) (k0 - i - mk) loss) lzero = nth (c - mk) (y_losses st) lzero).
      { intros c hc hne. apply nth_set_nth_neq. lia. }
      pose proof (sg_iter hst) as hit. pose proof (sg_swaps hst) as hsw.
      constructor; cbn [y_med y_data y_rl y_loss y_losses y_best y_assi y_meds y_iter y_swaps].
      - lia.
      - lia.
      - lia.
      - lia.
      - lia.
      - right. split; [lia|]. exists s, b. replace (S (k0 - S i)) with (k0 - i) by lia. auto.
      - intros ei. assert (i = 0) as -> by lia. rewrite Nat.sub_0_r in *.
        destruct h4 as [(_ & _ & _ & _ & e1 & e2)|[h _]]; [|lia]. rewrite e1, e2.
        exists s. split; [auto|]. split; [auto|]. split; [auto|]. intros hpos.
        fold loss in hpos. fold loss. destruct h9 as [(-> & _ & _)|(c & s1 & _ & hc & _)]; [|lia]. rewrite hpos. auto.
      - rewrite length_set_nth. auto.
      - intros c hc1 hc2. destruct (Nat.eq_dec c (k0 - i)) as [->|hne].
        + exists s. rewrite hnew. auto.
        + rewrite hold by auto. apply h7; auto. lia.
      - intros c hc1 hc2. rewrite hold by lia. apply h8; auto. lia.
      - destruct (lltb (y_best st) loss) eqn:el.
        + right. exists (k0 - i), s. rewrite hnew. split; [auto|]. split; [lia|]. auto.
        + destruct h9 as [h9|(c & s1 & q1 & q2 & q3 & q4 & q5)]; [left; auto|right].
          exists c, s1. rewrite hold by lia. split; [auto|]. split; [lia|]. auto.
      - intros P le hle p0 pr. destruct (h10 P le hle p0 pr) as (b0 & b1 & b2). destruct hle as (r1 & r2 & r3 & r4).
        assert (pl : P loss) by (apply (pr (k0 - i) s); auto).
        assert (hbest : le (y_best st) (if lltb (y_best st) loss then loss else y_best st)).
        { destruct (lltb (y_best st) loss) eqn:el; auto. }
        assert (pb : P (if lltb (y_best st) loss then loss else y_best st)) by (destruct (lltb (y_best st) loss); auto).
        split; [auto|].
        split; [apply r2 with (4 := b1); auto|]. intros c hc1 hc2. destruct (Nat.eq_dec c (k0 - i)) as [->|hne].
        + rewrite hnew. destruct (lltb (y_best st) loss) eqn:el; auto.
        + rewrite hold by auto. apply r2 with (y := y_best st); auto; [|apply b2; auto; lia].
          destruct (h7 c) as (s1 & q1 & ->); [auto|lia|]. apply (pr c); auto. lia.
      - lia.
      - nia.
    Qed.

    (** the number of medoids at the end of the loop; the loop of the code has ended, too *)
    Lemma dyn_loop_ok data loss : initial_assignment3 M med0 = Ok (loss, data) ->
      oks (whileM k0 (dyn_round M mk maxiter)
             (mkD med0 data (repeat lzero k0) loss (repeat lzero (k0 - mk + 1)) lzero [0; mlen M] med0 0 0))
          (fun st => exists i, d_inv i st /\ k0 - i = (if k0 =? 2 then 2 else Nat.max (mk - 1) 2)).
    Proof.
      intros e. apply whileM_oks with (I := d_inv).
      - constructor; cbn [y_med y_data y_rl y_loss y_losses y_best y_assi y_meds y_iter y_swaps]; try lia.
        + left. auto 10.
        + apply repeat_length.
        + intros c _ _. apply nth_repeat.
        + left. rewrite (len_n HM). auto.
        + intros P le (h & _) p0 _. split; [auto|]. split; [auto|]. lia.
      - intros i s hi h. eapply oks_mono; [apply dyn_round_ok; eauto|].
        intros [s'|s']; [auto|]. intros [-> hend]. exists i. split; [auto|].
        pose proof (di_two h) as d1. pose proof (di_le h). pose proof (di_three h).
        destruct (Nat.eqb_spec k0 2) as [e2|e2].
        + destruct (Nat.eq_dec i 0); [|lia]. lia.
        + destruct (Nat.eq_dec i 0) as [->|]; [lia|]. pose proof (di_mk h). lia.
      - intros s h. pose proof (di_two h). lia.
    Qed.

    (** the two medoids given to [fastermsc_k2] *)
    Definition two (med2 : list nat) : Prop :=
      (k0 = 2 /\ med2 = med0) \/
      (3 <= k0 /\ exists s b data' (loss' : Lt), rounds 3 s /\ snd (min_removal (m_rl s)) = Some b /\
         remove_med M (m_med s) (m_data s) b = Ok (med2, data', loss')).

    (** what [dynmsc] returns for two or more medoids *)
    Record dyn_facts (r : dyn_result Lt) : Prop := {
      df_len : length (d_losses r) = k0 - mk + 1;
      df_three : forall c, mk <= c -> 3 <= c <= k0 -> exists s, rounds c s /\
                  nth (c - mk) (d_losses r) lzero = to_silhouette M (m_loss s);
      df_two : mk <= 2 -> exists med2 r2, two med2 /\ fastermsc_k2 M med2 maxiter = Ok r2 /\
                  nth (2 - mk) (d_losses r) lzero = r_loss r2;
      df_one : mk <= 1 -> nth 0 (d_losses r) lzero = lzero;
      df_best : let p := d_res r in
        (r_loss p = lzero /\ r_assi p = [0; n] /\ r_med p = med0) \/
        (exists c s, mk <= c /\ 3 <= c <= k0 /\ rounds c s /\
           nth (c - mk) (d_losses r) lzero = r_loss p /\
           r_loss p = to_silhouette M (m_loss s) /\ r_assi p = assignment3_of (m_data s) /\
           r_med p = m_med s) \/
        (exists med2 r2, mk <= 2 /\ two med2 /\ fastermsc_k2 M med2 maxiter = Ok r2 /\
           nth (2 - mk) (d_losses r) lzero = r_loss p /\
           r_loss p = r_loss r2 /\ r_assi p = r_assi r2 /\ r_med p = r_med r2);
      df_ord : forall P le, ord_ok P le -> P lzero -> (forall c s, 3 <= c -> rounds c s -> P (to_silhouette M (m_loss s))) ->
                 (forall med2 r2, mk <= 2 -> two med2 -> fastermsc_k2 M med2 maxiter = Ok r2 -> P (r_loss r2)) ->
                 P (r_loss (d_res r)) /\ le lzero (r_loss (d_res r)) /\
                 forall x, In x (d_losses r) -> le x (r_loss (d_res r));
      df_iter : r_iter (d_res r) <= (k0 - 1) * maxiter;
      df_swaps : r_swaps (d_res r) <= n * r_iter (d_res r);
      df_top : mk = k0 -> exists p, fastermsc M med0 maxiter = Ok p /\
                 d_losses r = [r_loss p] /\ r_iter (d_res r) = r_iter p /\ r_swaps (d_res r) = r_swaps p /\
                 (lltb lzero (r_loss p) = true -> d_res r = p);
      df_first : exists p, fastermsc M med0 maxiter = Ok p /\ nth (k0 - mk) (d_losses r) lzero = r_loss p
    }.

    Lemma two_facts med2 : two med2 -> length med2 = 2 /\ inr med2 /\
      (forall v, Dg -> Emb v -> NoDup med0 -> NoDup med2).
    Proof.
      assert (hn : 1 <= n) by (destruct hs; lia).
      intros [[h1 ->]|(h3 & s & b & data' & loss' & e1 & e2 & e3)].
      - split; [auto|]. split; [auto|]. auto.
      - pose proof (rounds_stage hs hin h3 e1) as hst.
        destruct (stage_removal hn (le_n 3) hst) as (b1 & med1 & data1 & loss1 & f1 & f2 & f3 & f4 & f5 & f6 & f7 & f8 & _).
        rewrite e2 in f1. injection f1 as <-. rewrite e3 in f3. injection f3 as -> -> ->. auto.
    Qed.

    Lemma sizes_two : sizes n 2.
    Proof. unfold sizes in *. intuition lia. Qed.

    Lemma k2_returns med2 : length med2 = 2 -> inr med2 ->
      exists r2, fastermsc_k2 (Lt := Lt) M med2 maxiter = Ok r2 /\ fastermsc M med2 maxiter = Ok r2 /\
        r_iter r2 <= maxiter /\ r_swaps r2 <= n * r_iter r2.
    Proof.
      intros hl hi. pose proof (fastermsc_k2_shape (Lt := Lt) HM maxiter sizes_two hi hl) as h.
      apply oks_inv in h as (r2 & e & _ & _ & _ & _ & h1 & h2). exists r2.
      pose proof e as e'. unfold fastermsc in e'. rewrite hl in e'. cbn in e'. auto.
    Qed.

    Lemma rounds_top s : 3 <= k0 -> rounds k0 s ->
      fastermsc M med0 maxiter =
      Ok (mkPR (to_silhouette M (m_loss s)) (assignment3_of (m_data s)) (m_iter s) (m_swaps s) (m_med s)).
    Proof.
      intros h3 hr. inversion hr as [loss data rl s1 e1 e2 e3|c s1 b med' data' loss' rl' s' hr' _ _ _ _ _ e1 e2]; subst.
      - unfold fastermsc.
        replace (k0 =? 1) with false by (symmetry; apply Nat.eqb_neq; lia).
        replace (k0 =? 2) with false by (symmetry; apply Nat.eqb_neq; lia).
        rewrite e1. cbn [bind]. rewrite e2. cbn [bind]. rewrite (len_n HM), e3. auto.
      - pose proof (sg_le (rounds_stage hs hin h3 hr')). lia.
    Qed.
  End Loop.

  Lemma dynmsc_facts mink : sizes n k0 -> inr med0 -> 2 <= k0 ->
    oks (dynmsc M med0 mink maxiter) (dyn_facts (Nat.min (Nat.max mink 1) k0)).
  Proof.
    intros hs hin hk. unfold dynmsc. set (mk := Nat.min (Nat.max mink 1) k0).
    assert (hmk : 1 <= mk <= k0) by (unfold mk; lia). clearbody mk.
    replace (k0 =? 1) with false by (symmetry; apply Nat.eqb_neq; lia).
    pose proof (initial_assignment3_ok (Lt := Lt) HM True hs hin hk) as h.
    apply oks_inv in h as ([loss data] & e & _). rewrite e. cbn [bind].
    pose proof (dyn_loop_ok hs hin hk hmk e) as hl.
    apply oks_inv in hl as (st & -> & i & hi & hend). cbn [bind].
    pose proof (di_two hi) as d2. pose proof (di_three hi) as d3. pose proof (di_mk hi) as d4.
    assert (hik : i * maxiter <= (k0 - 2) * maxiter) by (apply Nat.mul_le_mono_r; lia).
    pose proof (di_iter hi) as hit.
    assert (hlen := di_losses hi).
    assert (HT : k0 = 2 \/ exists s, rounds k0 s).
    { destruct (Nat.eq_dec k0 2); [auto|right].
      destruct (Nat.eq_dec i 0); [revert hend; destruct (Nat.eqb_spec k0 2); lia|].
      destruct (di_done hi (c := k0)) as (s & hs' & _); [lia|lia|]. eauto. }
    destruct (Nat.leb_spec mk 2) as [h2|h2].
    - (* the k = 2 run *)
      assert (hi2 : k0 - i = 2) by (revert hend; destruct (Nat.eqb_spec k0 2); lia).
      assert (ht : two (y_med st)).
      { destruct (di_prev hi) as [(-> & e1 & e2 & _)|(h0 & s & b & e1 & e2 & e3 & _)].
        - left. split; [lia|auto].
        - right. split; [auto|]. exists s, b, (y_data st), (y_loss st). rewrite hi2 in e1. auto. }
      destruct (two_facts hs hin hk hmk ht) as (t1 & t2 & _).
      destruct (k2_returns hs hk hmk t1 t2) as (r2 & e2 & e2' & q1 & q2). rewrite e2. cbn [bind].
      rewrite upd_ok by lia. cbn [bind].
      set (losses := set_nth (y_losses st) (2 - mk) (r_loss r2)).
      assert (hL : exists l, (if mk <=? 1 then upd losses 0 lzero else Ok losses) = Ok l /\
        length l = k0 - mk + 1 /\ (forall c, mk <= c -> 3 <= c -> nth (c - mk) l lzero = nth (c - mk) (y_losses st) lzero) /\
        nth (2 - mk) l lzero = r_loss r2 /\ (mk <= 1 -> nth 0 l lzero = lzero)).
      { assert (h2' : nth (2 - mk) losses lzero = r_loss r2) by (apply nth_set_nth_eq; lia).
        assert (h3' : forall c, mk <= c -> 3 <= c -> nth (c - mk) losses lzero = nth (c - mk) (y_losses st) lzero)
          by (intros c c1 c2; apply nth_set_nth_neq; lia).
        assert (hll : length losses = k0 - mk + 1) by (unfold losses; rewrite length_set_nth; auto).
        destruct (Nat.leb_spec mk 1) as [h1|h1].
        - rewrite upd_ok by lia. eexists. split; [reflexivity|]. rewrite length_set_nth. split; [auto|].
          split; [intros c c1 c2; rewrite nth_set_nth_neq by lia; auto|].
          split; [rewrite nth_set_nth_neq by lia; auto|]. intros _. apply nth_set_nth_eq. lia.
        - exists losses. split; [auto|]. split; [auto|]. split; [auto|]. split; [auto|]. lia. }
      destruct hL as (l & el & hl1 & hl2 & hl3 & hl4). cbn [y_losses]. fold losses. rewrite el. clear el. cbn [bind oks].
      constructor; cbn [d_res d_losses r_loss r_assi r_iter r_swaps r_med y_best y_assi y_meds y_iter y_swaps].
      + auto.
      + intros c c1 c2. rewrite hl2 by lia. apply (di_done hi); lia.
      + intros _. eauto 10.
      + auto.
      + cbv zeta. destruct (lltb (y_best st) (r_loss r2)) eqn:el.
        * right. right. exists (y_med st), r2. auto 10.
        * destruct (di_best hi) as [h|(c & s & c1 & c2 & c3 & c4 & c5)]; [left; auto|].
          right. left. exists c, s. split; [auto|]. split; [lia|]. split; [auto|]. rewrite hl2 by lia. auto.
      + intros P le hle p0 pr p2. destruct (di_ord hi hle p0 pr) as (o0 & o1 & o2). destruct hle as (r1 & r2' & r3 & r4).
        assert (pl : P (r_loss r2)) by (apply (p2 (y_med st)); auto).
        assert (hb : le (y_best st) (if lltb (y_best st) (r_loss r2) then r_loss r2 else y_best st)).
        { destruct (lltb _ _) eqn:el; auto. }
        assert (hb2 : le (r_loss r2) (if lltb (y_best st) (r_loss r2) then r_loss r2 else y_best st)).
        { destruct (lltb _ _) eqn:el; auto. }
        assert (pb : P (if lltb (y_best st) (r_loss r2) then r_loss r2 else y_best st)) by (destruct (lltb _ _); auto).
        assert (hz : le lzero (if lltb (y_best st) (r_loss r2) then r_loss r2 else y_best st)) by (apply r2' with (y := y_best st); auto).
        split; [auto|]. split; [auto|]. intros x hx. apply (In_nth _ _ lzero) in hx as (c & hc & <-).
        replace c with ((c + mk) - mk) by lia. destruct (le_lt_dec 3 (c + mk)).
        * rewrite hl2 by lia. apply r2' with (y := y_best st); auto; [|apply o2; lia].
          destruct (di_done hi (c := c + mk)) as (s1 & q & ->); [lia|lia|]. apply (pr (c + mk)); auto.
        * destruct (Nat.eq_dec (c + mk) 2) as [->|]; [rewrite hl3; auto|].
          replace (c + mk - mk) with 0 by lia. rewrite hl4 by lia. auto.
      + replace (k0 - 1) with (S (k0 - 2)) by lia. cbn [Nat.mul]. lia.
      + pose proof (di_swaps hi). nia.
      + intros em. assert (k0 = 2) by lia. assert (i = 0) as -> by lia.
        destruct (di_prev hi) as [(_ & p1 & p2 & _ & p3 & p4)|[? _]]; [|lia].
        exists r2. rewrite p2 in e2'. split; [auto|]. split.
        { destruct l as [|x [|]]; cbn [length] in hl1; try lia. replace (2 - mk) with 0 in hl3 by lia. cbn in hl3. congruence. }
        rewrite p3, p4. split; [auto|]. split; [auto|]. intros hpos.
        destruct (di_best hi) as [(b1 & b2 & b3)|(c & s & c1 & c2 & _)]; [|lia].
        rewrite b1, hpos. destruct r2; auto.
      + destruct (Nat.eq_dec k0 2) as [e3|e3].
        * destruct ht as [[_ e4]|[? _]]; [|lia]. rewrite e4 in e2'. exists r2. split; [auto|]. rewrite e3. auto.
        * destruct (di_done hi (c := k0)) as (s & hr & hs'); [lia|lia|].
          assert (h3 : 3 <= k0) by lia.
          eexists. split; [apply (rounds_top hs hin hk hmk h3 hr)|]. cbn [r_loss]. rewrite hl2 by lia. auto.
    - assert (h1 : mk <=? 1 = false) by (apply Nat.leb_gt; lia). cbn [bind]. rewrite h1. cbn [bind oks].
      assert (hi2 : k0 - i = mk - 1) by (revert hend; destruct (Nat.eqb_spec k0 2); lia).
      constructor; cbn [d_res d_losses r_loss r_assi r_iter r_swaps r_med y_best y_assi y_meds y_iter y_swaps]; try lia.
      + intros c c1 c2. apply (di_done hi); lia.
      + cbv zeta. destruct (di_best hi) as [h|(c & s & c1 & c2 & c3 & c4 & c5)]; [left; auto|].
        right. left. exists c, s. split; [auto|]. split; [lia|]. auto.
      + intros P le hle p0 pr _. destruct (di_ord hi hle p0 pr) as (o0 & o1 & o2). split; [auto|]. split; [auto|].
        intros x hx. apply (In_nth _ _ lzero) in hx as (c & hc & <-).
        replace c with ((c + mk) - mk) by lia. apply o2; lia.
      + apply (di_swaps hi).
      + intros em. assert (i = 1) as -> by lia. destruct (di_one hi eq_refl) as (s & hr & o1 & o2 & o3).
        assert (h3 : 3 <= k0) by lia.
        eexists. split; [apply (rounds_top hs hin hk hmk h3 hr)|]. cbn [r_loss r_iter r_swaps].
        destruct (di_done hi (c := k0)) as (s' & hr' & hs'); [lia|lia|].
        pose proof (rounds_top hs hin hk hmk h3 hr) as t1. rewrite (rounds_top hs hin hk hmk h3 hr') in t1. injection t1 as t1 _ _ _ _.
        split.
        { destruct (y_losses st) as [|x [|]]; cbn [length] in hlen; try lia.
          replace (k0 - mk) with 0 in hs' by lia. cbn in hs'. congruence. }
        split; [auto|]. split; [auto|]. intros hpos. destruct (o3 hpos) as (-> & -> & ->). rewrite o1, o2. auto.
      + assert (h3 : 3 <= k0) by lia.
        destruct (di_done hi (c := k0)) as (s' & hr' & hs'); [lia|lia|].
        eexists. split; [apply (rounds_top hs hin hk hmk h3 hr')|]. cbn [r_loss]. auto.
  Qed.

  (** for every numeric type: it returns, with the placeholder [[0; n]] or a complete assignment *)
  Lemma dynmsc_shape mink : sizes n k0 -> inr med0 ->
    exists r : dyn_result Lt, dynmsc M med0 mink maxiter = Ok r /\
      let mk := Nat.min (Nat.max mink 1) k0 in let p := d_res r in
      length (d_losses r) = k0 - mk + 1 /\ mk <= length (r_med p) <= k0 /\ inr (r_med p) /\
      (r_assi p = [0; n] /\ r_med p = med0 /\ r_loss p = lzero \/
       length (r_assi p) = n /\ forall o, o < n -> nth o (r_assi p) 0 < length (r_med p)).
  Proof.
    intros hs hin. destruct (Nat.eq_dec k0 1) as [h1|h1].
    - destruct med0 as [|x [|]] eqn:em; cbn [length] in h1; try lia.
      assert (hx : x < n) by (apply hin; simpl; auto).
      destruct (single_returns (Lt := Lt) HM hx) as (p & e & q1 & q2 & q3 & q4).
      exists (mkDR p [r_loss p]). unfold dynmsc. cbn [length Nat.eqb]. rewrite e. cbn [bind].
      split; [auto|]. cbn [d_res d_losses length]. rewrite q1. split; [lia|]. split; [lia|]. split; [auto|]. auto.
    - assert (hk : 2 <= k0) by (destruct hs; lia).
      pose proof (dynmsc_facts mink hs hin hk) as h. apply oks_inv in h as (r & e & hf). exists r.
      split; [auto|]. cbv zeta. set (mk := Nat.min (Nat.max mink 1) k0) in *.
      assert (hmk : 1 <= mk <= k0) by (unfold mk; lia). clearbody mk.
      split; [apply (df_len hf)|].
      destruct (df_best hf) as [(b1 & b2 & b3)|[(c & s & c1 & c2 & c3 & c4 & c5 & c6 & c7)|
                                (med2 & r2 & c1 & c2 & c3 & c4 & c5 & c6 & c7)]].
      + rewrite b3. split; [lia|]. split; [auto|]. left. auto.
      + assert (h3 : 3 <= k0) by lia. destruct (sg_inv (rounds_stage hs hin h3 c3)) as [i1 i2 i3 i4].
        destruct (assignment3_shape i1 i3) as [a1 a2]. rewrite c6, c7, i1.
        split; [lia|]. split; [auto|]. right. split; [auto|]. intros o ho. apply a2, nth_In. lia.
      + destruct (two_facts hs hin hk hmk c2) as (t1 & t2 & _).
        pose proof (fastermsc_k2_shape (Lt := Lt) HM maxiter (sizes_two hs hk hmk) t2 t1) as h.
        unfold fastermsc in h. rewrite t1 in h. cbn [Nat.eqb] in h. apply oks_elim with (2 := c3) in h.
        destruct h as (g1 & g2 & g3 & g4 & _). rewrite c6, c7, g1.
        split; [lia|]. split; [auto|]. right. split; [auto|]. intros o ho. apply g4, nth_In. lia.
  Qed.
End Shape.
