(** LocalSearch.v -- the control structure shared by the algorithms: first-improvement search over
    a cyclic candidate list with a "last swap" marker (fasterpam.rs:60-83, fastermsc.rs:73-96 and
    316-338) and steepest descent (fastpam1.rs:62-87, pam.rs:170-194, fastmsc.rs, pammedsil.rs). *)
From Coq Require Import QArith Lqa Lia.
From Verif Require Import Base Hoare Reference.
Set Implicit Arguments.
Open Scope nat_scope.

Lemma NoDup_split_unique A (x : A) l1 l2 l1' l2' :
  NoDup (l1 ++ x :: l2) -> l1 ++ x :: l2 = l1' ++ x :: l2' -> l1 = l1' /\ l2 = l2'.
Proof.
  revert l1'. induction l1 as [|a l1 IH]; simpl; intros l1' hnd e.
  - destruct l1' as [|b l1']; simpl in e; [injection e as <-; auto|].
    injection e as <- e. inversion hnd as [|? ? h1 h2]; subst. exfalso. apply h1.
    apply in_or_app. simpl. auto.
  - destruct l1' as [|b l1']; simpl in e.
    + injection e as -> e. subst l2'. inversion hnd as [|? ? h1 h2]; subst. exfalso. apply h1.
      apply in_or_app. simpl. auto.
    + injection e as -> e. inversion hnd as [|? ? h1 h2]; subst.
      destruct (IH l1' h2 e) as [-> ->]. auto.
Qed.

Section First.
  Variables (St T : Type).
  Variable cand : St -> nat -> res (ctl St).
  Variable order : list nat.
  Variables last swaps iter : St -> nat.
  Variable obj : St -> Q.
  Variable good : St -> Prop.
  Variable nonimp : St -> nat -> Prop.
  Variable mu : St -> nat.
  Variable core : St -> T.
  Variable tryf : T -> nat -> option T.
  Variable inc : St -> St.
  Variable stop : St -> St -> bool.

  Definition iteration (st : St) : res (ctl St) :=
    st' <- forM cand order (inc st) ;;
    if (swaps st' =? swaps st) || stop st st' then Ok (Break st') else Ok (Next st').

  Hypothesis order_nodup : NoDup order.
  Hypothesis inc_spec : forall st, good st ->
    good (inc st) /\ last (inc st) = last st /\ swaps (inc st) = swaps st /\
    obj (inc st) = obj st /\ mu (inc st) = mu st /\ core (inc st) = core st /\
    iter (inc st) = S (iter st) /\ forall j, nonimp st j -> nonimp (inc st) j.
  Hypothesis stop_spec : forall st st', good st -> good st' -> (obj st' < obj st)%Q ->
    stop st st' = false.
  Hypothesis try_none : forall st j, good st -> In j order -> nonimp st j -> tryf (core st) j = None.
  Hypothesis cand_spec : forall st j, good st -> In j order ->
    oks (cand st j) (fun c => match c with
      | Break s => s = st /\ j = last st
      | Next s => good s /\ iter s = iter st /\ j <> last st /\
          ((s = st /\ nonimp st j) \/
           ((obj s < obj st)%Q /\ mu s < mu st /\ last s = j /\ swaps s = S (swaps st) /\
            nonimp s j /\ ~ nonimp st j /\ tryf (core st) j = Some (core s)))
      end).

  Lemma pass_none pre x : (forall j, In j pre -> tryf (fst x) j = None) -> pass tryf pre x = x.
  Proof.
    unfold pass. revert x. induction pre as [|j pre IH]; intros x h; simpl; [auto|].
    rewrite (h j) by (simpl; auto). apply IH. intros j' hj'. apply h. simpl. auto.
  Qed.
  Lemma pass_snoc pre j x : pass tryf (pre ++ [j]) x =
    match tryf (fst (pass tryf pre x)) j with
    | Some y => (y, S (snd (pass tryf pre x))) | None => pass tryf pre x end.
  Proof. unfold pass. rewrite fold_left_app. reflexivity. Qed.

  Definition cyc (st : St) : Prop :=
    (swaps st = 0 /\ ~ In (last st) order) \/
    (nonimp st (last st) /\ exists pre post, order = pre ++ last st :: post /\
       forall j, In j post -> nonimp st j).

  Lemma iteration_ok st :
    good st -> cyc st ->
    oks (iteration st) (fun c => match c with
      | Break s => s = inc st /\ good s /\ (forall j, In j order -> nonimp s j) /\
                   pass tryf order (core st, swaps st) = (core st, swaps st)
      | Next s => good s /\ cyc s /\ iter s = S (iter st) /\ swaps st < swaps s /\
                  (obj s < obj st)%Q /\ swaps s + mu s <= swaps st + mu st /\
                  pass tryf order (core st, swaps st) = (core s, swaps s)
      end).
  Proof.
    intros hg hcyc. unfold iteration.
    destruct (inc_spec hg) as (ig & il & is & io & im & ic & ii & inn).
    pose (modeB := fun (pre : list nat) (s : St) =>
      swaps st < swaps s /\ (obj s < obj st)%Q /\ swaps s + mu s <= swaps st + mu st /\
      pass tryf pre (core st, swaps st) = (core s, swaps s) /\
      nonimp s (last s) /\ exists p1 p2, pre = p1 ++ last s :: p2 /\ forall j, In j p2 -> nonimp s j).
    eapply oks_bind with (P := fun s => good s /\ iter s = S (iter st) /\
      ((s = inc st /\ forall j, In j order -> nonimp s j) \/ modeB order s)).
    - apply forM_oks with (I := fun pre s => good s /\ iter s = S (iter st) /\
        ((s = inc st /\ forall j, In j pre -> nonimp s j) \/ modeB pre s)).
      + split; [auto|]. split; [auto|]. left. split; auto. intros j [].
      + intros pre j post s eo (hgs & his & hm).
        assert (hj : In j order) by (rewrite eo; apply in_or_app; simpl; auto).
        eapply oks_mono; [apply cand_spec; auto|].
        intros [s'|s'].
        * intros (hg' & hi' & hne & hstep). split; [auto|]. split; [congruence|].
          destruct hstep as [[-> hni]|(ho & hmu & hl & hs & hni & _ & htry)].
          -- destruct hm as [[-> ha]|(b1 & b2 & b3 & bp & b4 & p1 & p2 & e & hp)].
             ++ left. split; auto. intros j' hin. apply in_app_or in hin as [hin|[<-|[]]]; auto.
             ++ right. split; [auto|]. split; [auto|]. split; [auto|].
                split; [rewrite pass_snoc, bp; cbn [fst]; rewrite try_none; auto|]. split; [auto|].
                exists p1, (p2 ++ [j]). split; [rewrite e, <- app_assoc; auto|].
                intros j' hin. apply in_app_or in hin as [hin|[<-|[]]]; auto.
          -- right. destruct hm as [[-> ha]|(b1 & b2 & b3 & bp & b4 & p1 & p2 & e & hp)].
             ++ rewrite is in hs. rewrite io in ho. rewrite im in hmu. rewrite ic in htry.
                assert (hpre : pass tryf pre (core st, swaps st) = (core st, swaps st)).
                { apply pass_none. intros j' hj'. cbn [fst]. rewrite <- ic. apply try_none; auto.
                  rewrite eo. apply in_or_app. auto. }
                split; [lia|]. split; [auto|]. split; [lia|].
                split; [rewrite pass_snoc, hpre; cbn [fst snd]; rewrite htry, hs; auto|]. split; [congruence|].
                exists pre, []. split; [rewrite hl; auto|]. intros j' [].
             ++ split; [lia|]. split; [lra|]. split; [lia|].
                split; [rewrite pass_snoc, bp; cbn [fst snd]; rewrite htry, hs; auto|]. split; [congruence|].
                exists pre, []. split; [rewrite hl; auto|]. intros j' [].
        * intros [-> ej]. split; [auto|]. split; [auto|].
          destruct hm as [[-> ha]|(b1 & b2 & b3 & bp & b4 & p1 & p2 & e & hp)].
          -- left. split; auto. rewrite il in ej.
             destruct hcyc as [[_ hc]|(hl & pr & po & e2 & hc)]; [subst; tauto|].
             rewrite ej in eo. rewrite eo in e2.
             assert (hnd : NoDup (pre ++ last st :: post)) by (rewrite <- eo; auto).
             destruct (NoDup_split_unique _ _ _ _ _ hnd e2) as [-> ->].
             intros j' hin. rewrite eo in hin. apply in_app_or in hin as [hin|[<-|hin]]; auto.
          -- exfalso. rewrite eo, e in order_nodup. rewrite ej in order_nodup.
             rewrite <- app_assoc in order_nodup. apply NoDup_remove in order_nodup as [_ hnd].
             apply hnd. apply in_or_app. right. apply in_or_app. simpl. auto.
      + intros s h. exact h.
    - intros s (hgs & his & hm).
      destruct hm as [[-> ha]|(b1 & b2 & b3 & bp & b4 & p1 & p2 & e & hp)].
      + rewrite is, Nat.eqb_refl. simpl. split; [auto|]. split; [auto|]. split; [auto|].
        apply pass_none. intros j hj. cbn [fst]. rewrite <- ic. auto.
      + replace (swaps s =? swaps st) with false by (symmetry; apply Nat.eqb_neq; lia).
        rewrite (stop_spec hg hgs b2). simpl.
        split; [auto|]. split; [right; split; eauto|]. auto 10.
  Qed.

  Record first_result (maxiter : nat) (st0 st : St) : Prop := {
    fr_good : good st;
    fr_iter : iter st <= maxiter;
    fr_obj : (obj st <= obj st0)%Q;
    fr_strict : 0 < swaps st -> (obj st < obj st0)%Q;
    fr_same : swaps st = 0 -> core st = core st0;
    fr_mu : swaps st + mu st <= mu st0;
    fr_iterswap : iter st <= S (swaps st);
    fr_opt : iter st < maxiter -> forall j, In j order -> nonimp st j;
    fr_opt0 : swaps st = 0 -> 0 < maxiter -> forall j, In j order -> nonimp st j;
    fr_fix : (forall j, In j order -> nonimp st0 j) -> 0 < maxiter -> st = inc st0;
    fr_ref : (core st, swaps st, iter st) = search tryf order maxiter (core st0) 0 0
  }.

  (** nothing is done in a local optimum *)
  Lemma first_fix maxiter st0 : good st0 -> ~ In (last st0) order ->
    (forall j, In j order -> nonimp st0 j) -> whileM (S maxiter) iteration st0 = Ok (inc st0).
  Proof.
    intros hg hl hn. destruct (inc_spec hg) as (ig & il & is & io & im & ic & ii & inn).
    assert (h : oks (forM cand order (inc st0)) (fun s => s = inc st0)).
    { apply forM_inv; [auto|]. intros j s hj ->.
      eapply oks_mono; [apply cand_spec; auto|]. intros [s|s].
      - intros (_ & _ & _ & [[h _]|(_ & _ & _ & _ & _ & h & _)]); [exact h|]. exfalso. auto.
      - intros [h _]. exact h. }
    apply oks_inv in h as (s & e & ->). cbn [whileM]. unfold iteration. rewrite e. cbn [bind].
    rewrite is, Nat.eqb_refl. reflexivity.
  Qed.

  Lemma first_improvement maxiter st0 :
    good st0 -> swaps st0 = 0 -> iter st0 = 0 -> ~ In (last st0) order ->
    oks (whileM maxiter iteration st0) (first_result maxiter st0).
  Proof.
    intros hg hs hi hl.
    assert (hfix : forall st, whileM maxiter iteration st0 = Ok st ->
              (forall j, In j order -> nonimp st0 j) -> 0 < maxiter -> st = inc st0).
    { intros st e hn hm. destruct maxiter as [|m]; [lia|]. rewrite (first_fix m hg hl hn) in e. congruence. }
    enough (h : oks (whileM maxiter iteration st0) (fun st =>
              ((forall j, In j order -> nonimp st0 j) -> 0 < maxiter -> st = inc st0) ->
              first_result maxiter st0 st)).
    { apply oks_self in h. eapply oks_mono; [exact h|]. intros st [e h1]. apply h1. apply hfix, e. }
    clear hfix.
    apply whileM_oks with (I := fun i st => good st /\ cyc st /\ iter st = i /\ i <= swaps st /\
      ((obj st < obj st0)%Q /\ 0 < swaps st \/ st = st0) /\ swaps st + mu st <= mu st0 /\
      i <= maxiter /\
      search tryf order maxiter (core st0) 0 0 = search tryf order (maxiter - i) (core st) (swaps st) i).
    - split; [auto|]. split; [left; auto|]. split; [auto|]. split; [lia|]. split; [auto|]. split; [lia|].
      split; [lia|]. rewrite Nat.sub_0_r, hs. reflexivity.
    - intros i st hlt (h1 & h2 & h3 & h4 & h5 & h6 & hle & href).
      destruct (inc_spec h1) as (ig & il & is & io & im & ic & ii & inn).
      replace (maxiter - i) with (S (maxiter - S i)) in href by lia. cbn [search] in href.
      eapply oks_mono; [apply iteration_ok; auto|].
      intros [s|s].
      + intros (g1 & g2 & g3 & g4 & g5 & g6 & g7). split; [auto|]. split; [auto|]. split; [congruence|].
        split; [lia|]. split.
        * left. split; [|lia]. destruct h5 as [[h5 _]| ->]; [lra|auto].
        * split; [lia|]. split; [lia|]. rewrite href, g7. cbn [fst snd].
          replace (swaps s =? swaps st) with false by (symmetry; apply Nat.eqb_neq; lia). reflexivity.
      + intros (-> & g2 & g3 & g4) hfix. constructor; auto.
        * lia.
        * rewrite io. destruct h5 as [[h5 _]| ->]; lra.
        * rewrite is, io. intros hp. destruct h5 as [[h5 _]| ->]; [auto|lia].
        * rewrite is, ic. intros hp. destruct h5 as [[_ h5]| ->]; [lia|auto].
        * lia.
        * lia.
        * rewrite href, g4. cbn [fst snd]. rewrite Nat.eqb_refl, ic, is, ii, h3. reflexivity.
    - intros st (h1 & h2 & h3 & h4 & h5 & h6 & hle & href) hfix. constructor; auto.
      + lia.
      + destruct h5 as [[h5 _]| ->]; lra.
      + intros hp. destruct h5 as [[h5 _]| ->]; [auto|lia].
      + intros hp. destruct h5 as [[_ h5]| ->]; [lia|auto].
      + lia.
      + lia.
      + intros hp. lia.
      + rewrite href, Nat.sub_diag. cbn [search]. rewrite h3. reflexivity.
  Qed.
End First.

Section Steep.
  Variables (St T : Type).
  Variable body : St -> res (ctl St).
  Variables swaps iter : St -> nat.
  Variable obj : St -> Q.
  Variable good : St -> Prop.
  Variable optimal : St -> Prop.
  Variable mu : St -> nat.
  Variable core : St -> T.
  Variable bestf : T -> option T.

  Hypothesis body_spec : forall st, good st ->
    oks (body st) (fun c => match c with
      | Break s => good s /\ optimal s /\ core s = core st /\ obj s = obj st /\ mu s = mu st /\
                   swaps s = swaps st /\ iter s = S (iter st) /\ bestf (core st) = None
      | Next s => good s /\ (obj s < obj st)%Q /\ mu s < mu st /\
                  swaps s = S (swaps st) /\ iter s = S (iter st) /\ bestf (core st) = Some (core s)
      end).

  Record steep_result (maxiter : nat) (st0 st : St) : Prop := {
    sr_good : good st;
    sr_iter : iter st <= maxiter;
    sr_obj : (obj st <= obj st0)%Q;
    sr_strict : 0 < swaps st -> (obj st < obj st0)%Q;
    sr_same : swaps st = 0 -> core st = core st0;
    sr_mu : swaps st + mu st <= mu st0;
    sr_end : (iter st = S (swaps st) /\ optimal st) \/ (iter st = swaps st /\ iter st = maxiter);
    sr_ref : (core st, swaps st, iter st) = descent bestf maxiter (core st0) 0 0
  }.

  Lemma steepest maxiter st0 :
    good st0 -> swaps st0 = 0 -> iter st0 = 0 ->
    oks (whileM maxiter body st0) (steep_result maxiter st0).
  Proof.
    intros hg hs hi.
    apply whileM_oks with (I := fun i st => good st /\ iter st = i /\ swaps st = i /\
      ((obj st < obj st0)%Q /\ 0 < swaps st \/ st = st0) /\ swaps st + mu st <= mu st0 /\ i <= maxiter /\
      descent bestf maxiter (core st0) 0 0 = descent bestf (maxiter - i) (core st) i i).
    - split; [auto|]. split; [auto|]. split; [auto|]. split; [auto|]. split; [lia|]. split; [lia|].
      rewrite Nat.sub_0_r. reflexivity.
    - intros i st hlt (h1 & h2 & h3 & h4 & h5 & hle & href).
      replace (maxiter - i) with (S (maxiter - S i)) in href by lia. cbn [descent] in href.
      eapply oks_mono; [apply body_spec; auto|]. intros [s|s].
      + intros (g1 & g2 & g3 & g4 & g5 & g6). split; [auto|]. split; [lia|]. split; [lia|].
        split; [left; split; [destruct h4 as [[h4 _]| ->]; [lra|auto]|lia]|]. split; [lia|]. split; [lia|].
        rewrite href, g6. reflexivity.
      + intros (g1 & g2 & g3 & g4 & g5 & g6 & g7 & g8). constructor; auto.
        * lia.
        * rewrite g4. destruct h4 as [[h4 _]| ->]; lra.
        * rewrite g4. intros hp. destruct h4 as [[h4 _]| ->]; [auto|lia].
        * intros hp. rewrite g3. destruct h4 as [[_ h4]| ->]; [lia|auto].
        * lia.
        * left. split; [lia|auto].
        * rewrite href, g8, g3, g6, g7, h2, h3. reflexivity.
    - intros st (h1 & h2 & h3 & h4 & h5 & hle & href). constructor; auto.
      + lia.
      + destruct h4 as [[h4 _]| ->]; lra.
      + intros hp. destruct h4 as [[h4 _]| ->]; [auto|lia].
      + intros hp. destruct h4 as [[_ h4]| ->]; [lia|auto].
      + right. split; lia.
      + rewrite href, Nat.sub_diag. cbn [descent]. rewrite h2, h3. reflexivity.
  Qed.
End Steep.

(** ** Counting: how many medoid lists are better than a given one *)
Fixpoint all_lists (n k : nat) : list (list nat) :=
  match k with
  | 0 => [[]]
  | S k' => flat_map (fun x => map (cons x) (all_lists n k')) (seq 0 n)
  end.

Lemma length_all_lists n k : length (all_lists n k) = n ^ k.
Proof.
  induction k; simpl; auto.
  assert (G : forall l, length (flat_map (fun x => map (cons x) (all_lists n k)) l)
                        = length l * n ^ k).
  { induction l; simpl; auto. rewrite app_length, map_length, IHl. lia. }
  rewrite G, seq_length. auto.
Qed.

Lemma in_all_lists n k l :
  length l = k -> (forall m, In m l -> m < n) -> In l (all_lists n k).
Proof.
  revert l. induction k; intros l hl hin; destruct l as [|x l]; simpl in *; try lia; auto.
  apply in_flat_map. exists x. split.
  - apply in_seq. specialize (hin x). lia.
  - apply in_map. apply IHk; auto.
Qed.

(** number of lists of [k] objects with a smaller value of [f] *)
Definition better (f : list nat -> Q) (n k : nat) (med : list nat) : nat :=
  length (filter (fun l => Qlt_bool (f l) (f med)) (all_lists n k)).

Lemma filter_length_lt A (p q : A -> bool) l x :
  (forall y, p y = true -> q y = true) -> In x l -> q x = true -> p x = false ->
  length (filter p l) < length (filter q l).
Proof.
  intros hpq hin hq hp.
  assert (G : forall l, length (filter p l) <= length (filter q l)).
  { induction l0; simpl; auto. destruct (p a) eqn:e.
    - rewrite (hpq a e). simpl. lia.
    - destruct (q a); simpl; lia. }
  induction l as [|y l IH]; simpl; [destruct hin|].
  destruct hin as [->|hin].
  - rewrite hq, hp. simpl. specialize (G l). lia.
  - specialize (IH hin). destruct (p y) eqn:e.
    + rewrite (hpq y e). simpl. lia.
    + destruct (q y); simpl; lia.
Qed.

Lemma better_lt f n k med med' :
  length med' = k -> (forall m, In m med' -> m < n) -> (f med' < f med)%Q ->
  better f n k med' < better f n k med.
Proof.
  intros hl hin hlt. apply filter_length_lt with (x := med').
  - intros y h. apply Qlt_bool_iff in h. apply Qlt_bool_iff. lra.
  - apply in_all_lists; auto.
  - apply Qlt_bool_iff. auto.
  - destruct (Qlt_bool (f med') (f med')) eqn:e; auto. apply Qlt_bool_iff in e. lra.
Qed.

Lemma better_bound f n k med :
  length med = k -> (forall m, In m med -> m < n) -> better f n k med < n ^ k.
Proof.
  intros hl hin. unfold better. rewrite <- (length_all_lists n k).
  set (p := fun l => Qlt_bool (f l) (f med)).
  assert (e : all_lists n k = filter (fun _ => true) (all_lists n k)).
  { induction (all_lists n k); simpl; f_equal; auto. }
  rewrite e at 2. apply filter_length_lt with (x := med); auto.
  - apply in_all_lists; auto.
  - unfold p. destruct (Qlt_bool (f med) (f med)) eqn:e2; auto. apply Qlt_bool_iff in e2. lra.
Qed.
