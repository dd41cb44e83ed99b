(** FloatPass.v -- repeated passes over the candidates with eager swaps, when a gain is only known up to an error [E]: what
    is known about the medoids at the end of a run (fastermsc with two and with more medoids; the same argument for
    fasterpam and par_fasterpam is in FloatSwap.v) *)
From Coq Require Import QArith Lqa Lia.
From Verif Require Import Base Num Inst Hoare FloatFacts FloatSil FloatLoss FloatFmt FloatSwap.
Set Implicit Arguments.
Open Scope Q_scope.

Section Pass.
  Variable S : Type.
  Variable med : S -> list nat.
  Variables last swaps iter : S -> nat.
  Variable loss : S -> f64.
  (** the state with the number of iterations increased *)
  Variable bump : S -> S.
  Hypothesis bump_med : forall s, med (bump s) = med s.
  Hypothesis bump_last : forall s, last (bump s) = last s.
  Hypothesis bump_swaps : forall s, swaps (bump s) = swaps s.
  Hypothesis bump_iter : forall s, iter (bump s) = Datatypes.S (iter s).

  Variable n : nat.
  Variable cost : list nat -> Q.
  Variables E el : Q.
  Hypothesis hep : 0 <= E.
  (** no swap with candidate [j] gains more than [E] *)
  Variable no_gain : list nat -> nat -> Prop.
  Hypothesis no_gain_medoid : forall m j, In j m -> no_gain m j.

  Variable core : S -> Prop.
  Hypothesis core_bump : forall s, core s -> core (bump s).
  Hypothesis core_loss : forall s, core s -> f64_finite (loss s) /\ close el (cost (med s)) (loss s).

  (** what happens to a state when candidate [j] is considered *)
  Definition step_near (s : S) (j : nat) (c : ctl S) : Prop :=
    match c with
    | Break s' => s' = s /\ j = last s
    | Next s' => core s' /\ iter s' = iter s /\ j <> last s /\
        ((s' = s /\ no_gain (med s) j) \/
         (last s' = j /\ swaps s' = Datatypes.S (swaps s) /\ In j (med s') /\ cost (med s') <= cost (med s) + E))
    end.

  Variable cand : S -> nat -> res (ctl S).
  Hypothesis Hcand : forall s j, (j < n)%nat -> core s -> oks (cand s j) (step_near s j).

  Definition pass (s : S) : res (ctl S) :=
    s' <- forM cand (seq 0 n) (bump s) ;;
    if (swaps s' =? swaps s)%nat || lleb (loss s) (loss s') then Ok (Break s') else Ok (Next s').

  (** between the passes: the candidates after the last one swapped in have been tried with these medoids *)
  Definition tried (s : S) : Prop :=
    last s = n \/ exists pre post, seq 0 n = pre ++ last s :: post /\ In (last s) (med s) /\
      forall j, In j post -> no_gain (med s) j.

  Lemma one_pass s0 : core s0 -> tried s0 ->
    oks (forM cand (seq 0 n) s0) (fun s => core s /\ iter s = iter s0 /\ (swaps s0 <= swaps s)%nat /\
      cost (med s) <= cost (med s0) + cnt n * E /\
      (swaps s = swaps s0 -> forall j, (j < n)%nat -> no_gain (med s) j) /\
      (swaps s <> swaps s0 -> tried s)).
  Proof.
    intros hc0 ht0. pose proof (seq_NoDup n 0) as Hnd.
    assert (hcn : forall l, (length l <= n)%nat -> cnt (@length nat l) * E <= cnt n * E).
    { intros l hl. apply Qmult_le_compat_r; [apply cnt_le; lia|auto]. }
    apply forM_oks with (I := fun pre s => core s /\ iter s = iter s0 /\ (swaps s0 <= swaps s)%nat /\
      cost (med s) <= cost (med s0) + cnt (length pre) * E /\
      (swaps s = swaps s0 -> med s = med s0 /\ last s = last s0 /\ forall j, In j pre -> no_gain (med s) j) /\
      (swaps s <> swaps s0 -> exists p1 p2, pre = p1 ++ last s :: p2 /\ In (last s) (med s) /\
         forall j, In j p2 -> no_gain (med s) j)).
    - split; [auto|]. split; [auto|]. split; [auto|]. split; [change (cnt (length (@nil nat))) with 0; lra|].
      split; [|congruence]. intros _. split; [auto|]. split; [auto|]. intros j [].
    - intros pre j post s e (h1 & h2 & h3 & h4 & h5 & h6).
      assert (hj : (j < n)%nat).
      { assert (h : In j (seq 0 n)) by (rewrite e; apply in_or_app; simpl; auto). apply in_seq in h. lia. }
      assert (hpl : (length pre <= n)%nat) by (rewrite <- (seq_length n 0), e, app_length; lia).
      assert (hnd' : NoDup (pre ++ j :: post)) by (rewrite <- e; auto).
      eapply oks_mono; [apply (Hcand hj h1)|].
      intros [s'|s'].
      + intros (q1 & q2 & q3 & q4). split; [auto|]. split; [congruence|].
        rewrite app_length. cbn [length]. rewrite cnt_add. change (cnt 1) with 1.
        destruct q4 as [[-> q4]|(q4 & q5 & q6 & q7)].
        * split; [auto|]. split; [lra|]. split.
          -- intros es. destruct (h5 es) as (a1 & a2 & a3). split; [auto|]. split; [auto|].
             intros i hi. apply in_app_or in hi as [hi|[<-|[]]]; auto.
          -- intros es. destruct (h6 es) as (p1 & p2 & a1 & a2 & a3). exists p1, (p2 ++ [j]).
             split; [rewrite a1, <- app_assoc; reflexivity|]. split; [auto|].
             intros i hi. apply in_app_or in hi as [hi|[<-|[]]]; auto.
        * split; [lia|]. split; [lra|]. split; [intros; lia|]. intros _. exists pre, []. rewrite q4.
          split; [auto|]. split; [auto|]. intros i [].
      + intros [-> ej]. split; [auto|]. split; [auto|]. split; [auto|].
        split; [specialize (hcn pre hpl); lra|]. split.
        * intros es. destruct (h5 es) as (a1 & a2 & a3).
          destruct ht0 as [ht0|(p1 & p2 & b1 & b2 & b3)]; [lia|].
          rewrite <- a2, <- ej in b1. pose proof e as e'. rewrite b1 in e'.
          apply NoDup_split in e' as [-> ->]; [|rewrite <- b1; auto].
          intros i hi. assert (hio : In i (seq 0 n)) by (apply in_seq; lia).
          rewrite b1 in hio. apply in_app_or in hio as [hin|[<-|hin]].
          -- apply a3; auto.
          -- apply no_gain_medoid. rewrite ej, a2, a1. auto.
          -- rewrite a1. apply b3; auto.
        * intros es. destruct (h6 es) as (p1 & p2 & a1 & a2 & a3). exfalso.
          apply NoDup_remove_2 in hnd'. apply hnd', in_or_app. left. rewrite a1, ej. apply in_or_app. simpl. auto.
    - intros s (h1 & h2 & h3 & h4 & h5 & h6). split; [auto|]. split; [auto|]. split; [auto|].
      split; [rewrite seq_length in h4; lra|]. split.
      + intros es j hj. destruct (h5 es) as (_ & _ & a3). apply a3. apply in_seq. lia.
      + intros es. right. destruct (h6 es) as (p1 & p2 & a1 & a2 & a3). exists p1, p2. auto.
  Qed.

  Lemma passes maxiter s0 : core s0 -> last s0 = n -> swaps s0 = 0%nat -> iter s0 = 0%nat ->
    oks (whileM maxiter pass s0) (fun s =>
      core s /\ cost (med s) <= f64_val (loss s0) + el + cnt n * E /\
      (swaps s = 0%nat -> (1 <= maxiter)%nat -> forall j, (j < n)%nat -> no_gain (med s) j) /\
      ((iter s < maxiter)%nat -> (forall j, (j < n)%nat -> no_gain (med s) j) \/
         exists i s1, iter s = Datatypes.S i /\ core s1 /\ whileM i pass s0 = Ok s1 /\ f64_val (loss s1) <= f64_val (loss s))).
  Proof.
    intros hc0 hl0 hs0 hi0.
    assert (hce : 0 <= cnt n * E) by (apply Qmult_le_0_compat; [apply cnt_pos|auto]).
    apply whileM_oks with (I := fun i s => reach pass s0 i s /\ core s /\ tried s /\ iter s = i /\
      f64_val (loss s) <= f64_val (loss s0) /\ (i = 0%nat \/ (1 <= swaps s)%nat)).
    - split; [constructor|]. split; [auto|]. split; [left; auto|]. split; [auto|]. split; [lra|auto].
    - intros i st hlt (r1 & r2 & r3 & r4 & r5 & r6).
      destruct (core_loss r2) as [lf [l1 l2]].
      apply oks_mono with (P := fun c => pass st = Ok c /\ match c with
        | Next s' => core s' /\ tried s' /\ iter s' = Datatypes.S i /\ f64_val (loss s') <= f64_val (loss st) /\ (1 <= swaps s')%nat
        | Break s' => core s' /\ iter s' = Datatypes.S i /\ cost (med s') <= f64_val (loss st) + el + cnt n * E /\
            (swaps s' = 0%nat -> forall j, (j < n)%nat -> no_gain (med s') j) /\
            ((forall j, (j < n)%nat -> no_gain (med s') j) \/ f64_val (loss st) <= f64_val (loss s'))
        end).
      + apply oks_self. unfold pass.
        pose proof (core_bump r2) as hc1.
        assert (ht1 : tried (bump st)) by (unfold tried; rewrite bump_last, bump_med; exact r3).
        eapply oks_bind; [apply (one_pass hc1 ht1)|].
        intros s (h1 & h2 & h3 & h4 & h5 & h6). rewrite bump_iter in h2. rewrite bump_swaps in *. rewrite bump_med in *.
        destruct (core_loss h1) as [lf' _].
        destruct ((swaps s =? swaps st)%nat || lleb (loss st) (loss s)) eqn:e; cbn [oks].
        * split; [auto|]. split; [congruence|]. split; [lra|]. split.
          -- intros e0. apply h5. lia.
          -- apply orb_true_iff in e as [e|e]; [left; apply Nat.eqb_eq in e; auto|right]. apply f64_lleb in e; auto.
        * apply orb_false_iff in e as [e1 e2]. apply Nat.eqb_neq in e1. apply f64_lleb_false in e2; auto.
          split; [auto|]. split; [auto|]. split; [congruence|]. split; [lra|lia].
      + intros [s|s] [hb q].
        * destruct q as (q1 & q2 & q3 & q4 & q5). split; [econstructor; eauto|]. split; [auto|]. split; [auto|]. split; [auto|]. split; [lra|auto].
        * destruct q as (q0 & q1 & q2 & q3 & q4). split; [auto|]. split; [lra|]. split; [auto|]. intros _. destruct q4 as [q4|q4]; [auto|].
          right. exists i, st. split; [auto|]. split; [auto|]. split; [|auto].
          pose proof (reach_while r1 0) as hw. rewrite Nat.add_0_r in hw. rewrite hw. reflexivity.
    - intros s (r1 & r2 & r3 & r4 & r5 & r6). destruct (core_loss r2) as [lf [l1 l2]].
      split; [auto|]. split; [lra|]. split; [intros; lia|intros; lia].
  Qed.
End Pass.
