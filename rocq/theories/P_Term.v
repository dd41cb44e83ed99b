(** P_Term.v -- property C60: in binary64 arithmetic, whatever rounding does, the swap algorithms stop
    by themselves; alternating need not. *)
From Coq Require Import ZArith QArith Lqa Lia.
From Coq.Floats Require Import SpecFloat.
From Verif Require Import Base Num M_Mat M_Util M_Fasterpam M_Pam M_Alternating M_Silhouette M_Msc M_Pammedsil Inst
  Hoare Spec SpecFacts Laws PamShape FpFacts ChooseFacts PamFacts PamMain BuildFacts MscShape MscFacts MscK2 MscMain
  BuildMsc FloatFacts Term TermMsc TermFloat Ex P_Float.
Open Scope nat_scope.

(** there is a result, reached after at most [bound] iterations, which is the result for every limit
    on the number of iterations from [bound] on *)
Definition stops_by_itself {Lt : Type} (run : nat -> res (pam_result Lt)) (bound : nat) : Prop :=
  exists r, r_iter r <= bound /\ forall maxiter, bound <= maxiter -> run maxiter = Ok r.

Lemma stops_intro {Lt} (run : nat -> res (pam_result Lt)) B : oks (run B) (fun r => r_iter r <= B) ->
  (forall f f', B <= f -> B <= f' -> run f = run f') -> stops_by_itself run B.
Proof.
  intros h1 h2. apply oks_inv in h1 as (r & e & h). exists r. split; [exact h|].
  intros m hm. rewrite (h2 m B hm (le_n B)). exact e.
Qed.

Lemma single_stops {Nt Lt : Type} `{NumN Nt} `{NumL Lt} `{FromN Nt Lt} (M : Mat Nt) n D med B :
  is_matrix M n D -> length med = 1 -> inr n med -> 1 <= B ->
  oks (single_medoid (Lt := Lt) M med) (fun r => r_iter r <= B).
Proof.
  intros HM h1 hin hB. eapply oks_mono; [apply (single_medoid_shape HM); auto|].
  intros r (_ & -> & _). exact hB.
Qed.

Lemma pow_pos n k : sizes n k -> 1 <= n ^ k.
Proof. intros hs. assert (0 < n ^ k) by (apply Nat.neq_0_lt_0, Nat.pow_nonzero; destruct hs; lia). lia. Qed.

Section Any.
  Context {Nt Lt : Type} `{HLO : LossOrder Nt Lt}.
  Variables (M : Mat Nt) (n : nat) (D : nat -> nat -> Nt).
  Hypothesis HD : diss_matrix M n D.
  Hypothesis Hsame : same_losses (Lt := Lt) n D.
  Hypothesis Hzero : lfrom (nzero : Nt) = (lzero : Lt).
  Let HM := proj1 HD.

  Lemma zero_irrefl_order : lltb (lzero : Lt) lzero = false.
  Proof.
    destruct (lltb (lzero : Lt) lzero) eqn:e; [|auto]. apply lltb_lleb in e; try apply okL_zero.
    rewrite lleb_refl in e by apply okL_zero. discriminate.
  Qed.

  Lemma fasterpam_by_itself order med : sizes n (length med) -> inr n med -> (forall j, In j order -> j < n) ->
    stops_by_itself (fasterpam_order (Lt := Lt) M order med) (n ^ length med).
  Proof.
    intros hs hin ho. pose proof (pow_pos _ _ hs) as hB. apply stops_intro.
    - destruct (Nat.eq_dec (length med) 1) as [h1|h1].
      + unfold fasterpam_order. apply Nat.eqb_eq in h1 as h1'. rewrite h1'. eapply single_stops; eauto.
      + eapply oks_mono; [apply (fasterpam_order_shape HM order); auto; destruct hs; lia|].
        intros r (st & _ & -> & h & _). exact h.
    - intros f f' h1 h2. apply (fasterpam_stops HD Hsame Hzero); auto.
  Qed.

  Lemma fastpam1_by_itself med : sizes n (length med) -> inr n med ->
    stops_by_itself (fastpam1 (Lt := Lt) M med) (n ^ length med).
  Proof.
    intros hs hin. pose proof (pow_pos _ _ hs) as hB. apply stops_intro.
    - destruct (Nat.eq_dec (length med) 1) as [h1|h1].
      + unfold fastpam1. apply Nat.eqb_eq in h1 as h1'. rewrite h1'. eapply single_stops; eauto.
      + eapply oks_mono; [apply (fastpam1_shape HM zero_irrefl_order); auto; destruct hs; lia|].
        intros r h. apply h.
    - intros f f' h1 h2. apply (fastpam1_stops HD Hsame Hzero); auto.
  Qed.

  Lemma pam_swap_by_itself med : sizes n (length med) -> inr n med ->
    stops_by_itself (pam_swap (Lt := Lt) M med) (n ^ length med).
  Proof.
    intros hs hin. pose proof (pow_pos _ _ hs) as hB. apply stops_intro.
    - destruct (Nat.eq_dec (length med) 1) as [h1|h1].
      + destruct med as [|x [|]]; simpl in h1; try lia. assert (hx : x < n) by (apply hin; simpl; auto).
        unfold pam_swap. destruct (initial_single (Lt := Lt) HM hs hx) as ([l d] & ->). eapply single_stops; eauto.
      + eapply oks_mono; [apply (pam_swap_shape HM zero_irrefl_order); auto; destruct hs; lia|].
        intros r h. apply h.
    - intros f f' h1 h2. apply (pam_swap_stops HD Hsame Hzero); auto.
  Qed.

  Lemma pam_by_itself k : sizes n k -> stops_by_itself (pam (Lt := Lt) M k) (S (n ^ k)).
  Proof.
    intros hs. apply stops_intro.
    - eapply oks_mono; [apply (pam_shape HM zero_irrefl_order); auto|].
      intros r (_ & _ & _ & _ & h & _). lia.
    - intros f f' h1 h2. apply (pam_stops HD Hsame Hzero); auto.
  Qed.
End Any.

Section AnyRatio.
  Context {Nt Lt : Type} `{HRO : RatioOrder Nt Lt}.
  Variables (M : Mat Nt) (n : nat) (D : nat -> nat -> Nt).
  Hypothesis HD : diss_matrix M n D.
  Hypothesis Hsame : same_losses (Lt := Lt) n D.
  Hypothesis Hratios : ratios_ok (Lt := Lt) n D.
  Let HM := proj1 HD.
  Let Hz : lltb (lzero : Lt) lzero = false := zero_irrefl_order.

  Lemma zero_sum_order : lltb (lzero : Lt) (ladd lzero lzero) = false.
  Proof.
    destruct (lltb (lzero : Lt) (ladd lzero lzero)) eqn:e; [|auto].
    apply lltb_lleb in e; [|apply okL_zero|apply okL_add; apply okL_zero].
    rewrite zero_zero_le in e. discriminate.
  Qed.

  Lemma msc_one med : sizes n (length med) -> inr n med -> length med = 1 ->
    oks (fastermsc (Lt := Lt) M med (n ^ length med)) (fun r => r_iter r <= n ^ length med) /\
    oks (fastmsc (Lt := Lt) M med (n ^ length med)) (fun r => r_iter r <= n ^ length med) /\
    oks (pammedsil_swap (Lt := Lt) M med (n ^ length med)) (fun r => r_iter r <= n ^ length med).
  Proof.
    intros hs hin h1. pose proof (pow_pos _ _ hs) as hB. destruct med as [|x [|]]; simpl in h1; try lia.
    assert (hx : x < n) by (apply hin; simpl; auto).
    destruct (msc_single (Lt := Lt) HM (n ^ length [x]) hs hx) as (-> & -> & ->).
    assert (h : oks (single_medoid (Lt := Lt) M [x]) (fun r => r_iter r <= n ^ length [x]))
      by (eapply single_stops; eauto). auto.
  Qed.

  Lemma fastermsc_by_itself med : sizes n (length med) -> inr n med ->
    stops_by_itself (fastermsc (Lt := Lt) M med) (n ^ length med).
  Proof.
    intros hs hin. apply stops_intro.
    - destruct (Nat.eq_dec (length med) 1) as [h1|h1]; [apply msc_one; auto|].
      destruct (Nat.eq_dec (length med) 2) as [h2|h2].
      + eapply oks_mono; [apply (fastermsc_k2_shape HM); auto; rewrite <- h2; auto|]. intros r h. apply h.
      + eapply oks_mono; [apply (fastermsc_shape HM); auto; destruct hs; lia|].
        intros r (st & _ & -> & h & _). exact h.
    - intros f f' h1 h2. apply (fastermsc_stops HD Hsame Hratios); auto.
  Qed.

  Lemma fastmsc_by_itself med : sizes n (length med) -> inr n med ->
    stops_by_itself (fastmsc (Lt := Lt) M med) (n ^ length med).
  Proof.
    intros hs hin. apply stops_intro.
    - destruct (Nat.eq_dec (length med) 1) as [h1|h1]; [apply msc_one; auto|].
      destruct (Nat.eq_dec (length med) 2) as [h2|h2].
      + eapply oks_mono; [apply (fastmsc_k2_shape HM (proj2 (emb_vals HD)) (zero_is_zero (Nt := Nt)) zero_sum_order);
          auto; rewrite <- h2; auto|]. intros r h. apply h.
      + eapply oks_mono; [apply (fastmsc_shape HM Hz); auto; destruct hs; lia|]. intros r h. apply h.
    - intros f f' h1 h2. apply (fastmsc_stops HD Hsame Hratios); auto.
  Qed.

  Lemma pammedsil_swap_by_itself med : sizes n (length med) -> inr n med ->
    stops_by_itself (pammedsil_swap (Lt := Lt) M med) (n ^ length med).
  Proof.
    intros hs hin. apply stops_intro.
    - destruct (Nat.eq_dec (length med) 1) as [h1|h1]; [apply msc_one; auto|].
      eapply oks_mono; [apply (pammedsil_swap_shape HM Hz); auto; destruct hs; lia|]. intros r h. apply h.
    - intros f f' h1 h2. apply (pammedsil_swap_stops HD Hsame Hratios); auto.
  Qed.

  Lemma pammedsil_by_itself k : sizes n k -> stops_by_itself (pammedsil (Lt := Lt) M k) (S (n ^ k)).
  Proof.
    intros hs. apply stops_intro.
    - assert (hk : 1 <= n /\ 1 <= k) by (destruct hs; lia). destruct hk as [hn hk].
      assert (hz : lleb (lzero : Lt) lzero = true) by (apply lleb_refl, okL_zero).
      unfold pammedsil. rewrite (check_input_ok HM hs). cbn [bind].
      pose proof (build3_shape HM hz hn hk) as hb. apply oks_inv in hb as (st & -> & l & hl & [h1 h2 h3 h4]).
      cbn [bind]. destruct (Nat.eq_dec l 1) as [->|hl2].
      + unfold pammedsil_optimize. rewrite h1, Nat.eqb_refl. eapply single_stops; eauto. lia.
      + eapply oks_mono; [apply (pammedsil_optimize_shape HM Hz); auto; [lia|]|].
        * split; auto. intros o r hr. destruct (h4 o r hr) as [[q _]|[_ q]]; [lia|]. rewrite h1. auto.
        * intros r h. apply h.
    - intros f f' h1 h2. apply (pammedsil_stops HD Hsame Hratios); auto.
  Qed.
End AnyRatio.

(** ** C60 *)
(** fasterpam, and rand_fasterpam with any order of the candidates, in binary64: from any medoids of
    any matrix of finite dissimilarities (of which none is a negative zero), even if sums overflow. *)
Theorem C60_fasterpam (M : Mat f64) n D med order :
  diss_matrix M n D -> no_negative_zero n D -> sizes n (length med) -> (forall m, In m med -> m < n) ->
  (forall j, In j order -> j < n) ->
  stops_by_itself (fasterpam (Lt := f64) M med) (n ^ length med) /\
  stops_by_itself (rand_fasterpam (Lt := f64) M order med) (n ^ length med).
Proof.
  intros HD hz hs hin ho. pose proof (same_losses_f64 HD hz) as hsame. assert (hz0 : lfrom (nzero : f64) = (lzero : f64)) by reflexivity. split.
  - apply (fasterpam_by_itself (Lt := f64) M n D HD hsame hz0 (seq 0 (mlen M))); auto.
    intros j hj. apply in_seq in hj. rewrite (len_n (proj1 HD)) in hj. lia.
  - apply (fasterpam_by_itself (Lt := f64) M n D HD hsame hz0 order); auto.
Qed.
Print Assumptions C60_fasterpam.

(** fastpam1 and the swap phase of pam; pam itself may need one iteration more, because the loss
    accumulated by BUILD may differ from the one computed from the medoids *)
Theorem C60_fastpam1_pam (M : Mat f64) n D med :
  diss_matrix M n D -> no_negative_zero n D -> sizes n (length med) -> (forall m, In m med -> m < n) ->
  stops_by_itself (fastpam1 (Lt := f64) M med) (n ^ length med) /\
  stops_by_itself (pam_swap (Lt := f64) M med) (n ^ length med) /\
  forall k, sizes n k -> stops_by_itself (pam (Lt := f64) M k) (S (n ^ k)).
Proof.
  intros HD hz hs hin. pose proof (same_losses_f64 HD hz) as hsame. assert (hz0 : lfrom (nzero : f64) = (lzero : f64)) by reflexivity.
  split; [apply (fastpam1_by_itself (Lt := f64) M n D HD hsame hz0); auto|].
  split; [apply (pam_swap_by_itself (Lt := f64) M n D HD hsame hz0); auto|].
  intros k hk. apply (pam_by_itself (Lt := f64) M n D HD hsame hz0); auto.
Qed.
Print Assumptions C60_fastpam1_pam.

(** the same with dissimilarities of an integer type and binary64 losses *)
Theorem C60_integers (M : Mat Z) n D med order :
  diss_matrix M n D -> sizes n (length med) -> (forall m, In m med -> m < n) -> (forall j, In j order -> j < n) ->
  stops_by_itself (fasterpam (Lt := f64) M med) (n ^ length med) /\
  stops_by_itself (rand_fasterpam (Lt := f64) M order med) (n ^ length med) /\
  stops_by_itself (fastpam1 (Lt := f64) M med) (n ^ length med) /\
  stops_by_itself (pam_swap (Lt := f64) M med) (n ^ length med) /\
  forall k, sizes n k -> stops_by_itself (pam (Lt := f64) M k) (S (n ^ k)).
Proof.
  intros HD hs hin ho. pose proof (@same_losses_Z n D) as hsame. assert (hz0 : lfrom (nzero : Z) = (lzero : f64)) by reflexivity.
  split.
  { apply (fasterpam_by_itself (Lt := f64) M n D HD hsame hz0 (seq 0 (mlen M))); auto.
    intros j hj. apply in_seq in hj. rewrite (len_n (proj1 HD)) in hj. lia. }
  split; [apply (fasterpam_by_itself (Lt := f64) M n D HD hsame hz0 order); auto|].
  split; [apply (fastpam1_by_itself (Lt := f64) M n D HD hsame hz0); auto|].
  split; [apply (pam_swap_by_itself (Lt := f64) M n D HD hsame hz0); auto|].
  intros k hk. apply (pam_by_itself (Lt := f64) M n D HD hsame hz0); auto.
Qed.
Print Assumptions C60_integers.

(** the algorithms for the medoid silhouette, for any number of medoids *)
Theorem C60_medoid_silhouette (M : Mat f64) n D med :
  diss_matrix M n D -> no_negative_zero n D -> sizes n (length med) -> (forall m, In m med -> m < n) ->
  stops_by_itself (fastermsc (Lt := f64) M med) (n ^ length med) /\
  stops_by_itself (fastmsc (Lt := f64) M med) (n ^ length med) /\
  stops_by_itself (pammedsil_swap (Lt := f64) M med) (n ^ length med) /\
  forall k, sizes n k -> stops_by_itself (pammedsil (Lt := f64) M k) (S (n ^ k)).
Proof.
  intros HD hz hs hin. pose proof (same_losses_f64 HD hz) as hsame. pose proof (@ratios_ok_f64 n D) as hrat.
  split; [apply (fastermsc_by_itself (Lt := f64) M n D HD hsame hrat); auto|].
  split; [apply (fastmsc_by_itself (Lt := f64) M n D HD hsame hrat); auto|].
  split; [apply (pammedsil_swap_by_itself (Lt := f64) M n D HD hsame hrat); auto|].
  intros k hk. apply (pammedsil_by_itself (Lt := f64) M n D HD hsame hrat); auto.
Qed.
Print Assumptions C60_medoid_silhouette.

(** ... and with integers up to 2^53 (hence all of [i32] and [u32]) *)
Theorem C60_medoid_silhouette_integers (M : Mat Z) n D med :
  diss_matrix M n D -> (forall x y, x < n -> y < n -> (D x y <= 2 ^ 53)%Z) -> sizes n (length med) -> (forall m, In m med -> m < n) ->
  stops_by_itself (fastermsc (Lt := f64) M med) (n ^ length med) /\
  stops_by_itself (fastmsc (Lt := f64) M med) (n ^ length med) /\
  stops_by_itself (pammedsil_swap (Lt := f64) M med) (n ^ length med) /\
  forall k, sizes n k -> stops_by_itself (pammedsil (Lt := f64) M k) (S (n ^ k)).
Proof.
  intros HD hb hs hin. pose proof (@same_losses_Z n D) as hsame. pose proof (@ratios_ok_Z n D hb) as hrat.
  split; [apply (fastermsc_by_itself (Lt := f64) M n D HD hsame hrat); auto|].
  split; [apply (fastmsc_by_itself (Lt := f64) M n D HD hsame hrat); auto|].
  split; [apply (pammedsil_swap_by_itself (Lt := f64) M n D HD hsame hrat); auto|].
  intros k hk. apply (pammedsil_by_itself (Lt := f64) M n D HD hsame hrat); auto.
Qed.
Print Assumptions C60_medoid_silhouette_integers.

(** *** concrete cases *)
Lemma f1_no_negative_zero : no_negative_zero 5 (fentries rows_f1).
Proof.
  intros i j hi hj e.
  assert (h : forallb (fun i => forallb (fun j => match fentries rows_f1 i j with S754_zero true => false | _ => true end)
    (seq 0 5)) (seq 0 5) = true) by (vm_compute; reflexivity).
  pose proof (forallb_seq _ h hi) as h1. pose proof (forallb_seq _ h1 hj) as h2. cbv beta in h2. rewrite e in h2. discriminate.
Qed.
Lemma below5 med : forallb (fun m => m <? 5) med = true -> forall m, In m med -> m < 5.
Proof. intros h m hm. rewrite forallb_forall in h. apply Nat.ltb_lt. auto. Qed.
Definition C60_fasterpam_case := C60_fasterpam _ 5 _ [0; 1] [3; 0; 2] f1_diss f1_no_negative_zero s52
  (below5 [0; 1] eq_refl) (below5 [3; 0; 2] eq_refl).
Definition C60_fastpam1_case := C60_fastpam1_pam _ 5 _ [0; 1] f1_diss f1_no_negative_zero s52 (below5 [0; 1] eq_refl).
Definition C60_msc_case := C60_medoid_silhouette _ 5 _ [0; 1; 2] f1_diss f1_no_negative_zero s53 (below5 [0; 1; 2] eq_refl).
Lemma d5_small x y : x < 5 -> y < 5 -> (d5 x y <= 2 ^ 53)%Z.
Proof. intros hx hy. do 5 (destruct x; [do 5 (destruct y; [vm_compute; discriminate|]); lia|]). lia. Qed.
Definition C60_msc_integers_case := C60_medoid_silhouette_integers _ 5 _ [0; 1; 2] m5_diss d5_small s53 (below5 [0; 1; 2] eq_refl).
Definition C60_integers_case := C60_integers _ 5 _ [0; 1] [3; 0; 2] m5_diss s52 (below5 [0; 1] eq_refl) (below5 [3; 0; 2] eq_refl).

(** ** alternating *)
(** 2^52 + i, where binary64 has a step of 1; the sum of two such numbers has a step of 2 *)
Definition big (i : Z) : f64 := f64_of_Z (4503599627370496 + i).
Definition rows_cycle : list (list f64) := Eval vm_compute in
  let o := S754_zero false in
  [[o; big 2; big 2; big 2; big 2; big 0]; [big 2; o; big 2; big 3; big 3; big 1]; [big 2; big 2; o; big 3; big 0; big 2];
   [big 2; big 3; big 3; o; big 1; big 1]; [big 2; big 3; big 0; big 1; o; big 2]; [big 0; big 1; big 2; big 1; big 2; o]]%Z.
Definition M_cycle : Mat f64 := mat_of_rows rows_cycle.

Definition metric_b (n : nat) (D : nat -> nat -> f64) : bool :=
  forallb (fun i => forallb (fun j => Qeq_bool (f64_val (D i j)) (f64_val (D j i)) &&
    forallb (fun l => Qle_bool (f64_val (D i l)) (f64_val (D i j) + f64_val (D j l))) (seq 0 n)) (seq 0 n)) (seq 0 n).
Lemma metric_rows n rows : 1 <= n -> frows_ok n rows = true -> metric_b n (fentries rows) = true ->
  metric n (vals (fentries rows)).
Proof.
  intros hn h1 h2. destruct (frows_diss n rows hn h1) as (_ & h3 & h4).
  assert (h : forall i j, i < n -> j < n -> (vals (fentries rows) i j == vals (fentries rows) j i)%Q /\
    forall l, l < n -> (vals (fentries rows) i l <= vals (fentries rows) i j + vals (fentries rows) j l)%Q).
  { intros i j hi hj. pose proof (forallb_seq _ h2 hi) as h5. pose proof (forallb_seq _ h5 hj) as h6. cbv beta in h6.
    apply andb_true_iff in h6 as [h6 h7]. split; [apply Qeq_bool_iff; exact h6|].
    intros l hl. apply Qle_bool_iff. exact (forallb_seq _ h7 hl). }
  split; [split|split].
  - intros i hi. unfold vals. rewrite (h3 i hi). reflexivity.
  - intros i j hi hj. apply h4; auto.
  - intros i j hi hj. apply h; auto.
  - intros i j l hi hj hl. apply h; auto.
Qed.

Definition state_a (it : nat) : ast f64 := mkA [3; 1] [0; 1; 1; 0; 0; 0] (S754_finite false 4503599627370497 2) it.
Definition state_b (it : nat) : ast f64 := mkA [5; 1] [0; 1; 0; 0; 0; 0] (S754_finite false 4503599627370498 2) it.
Lemma cycle_a it : alt_iteration M_cycle (state_a it) = Ok (Next (state_b (S it))).
Proof. vm_compute. reflexivity. Qed.
Lemma cycle_b it : alt_iteration M_cycle (state_b it) = Ok (Next (state_a (S it))).
Proof. vm_compute. reflexivity. Qed.

Lemma cycle_run f : forall it,
  whileM f (alt_iteration M_cycle) (state_a it) = Ok (if Nat.even f then state_a (it + f) else state_b (it + f)) /\
  whileM f (alt_iteration M_cycle) (state_b it) = Ok (if Nat.even f then state_b (it + f) else state_a (it + f)).
Proof.
  induction f as [|f IH]; intros it.
  - cbn [whileM Nat.even]. rewrite Nat.add_0_r. auto.
  - cbn [whileM]. rewrite cycle_a, cycle_b. cbn [bind]. destruct (IH (S it)) as [-> ->].
    rewrite Nat.even_succ, <- Nat.negb_even, Nat.add_succ_comm. destruct (Nat.even f); auto.
Qed.

(** In binary64, alternating need not stop: on this metric on six points it goes back and forth between
    the medoids 3, 1 and 5, 1 until the limit on the number of iterations, whatever that is.  (With
    exact sums it stops: C19.) *)
Theorem C60_alternating_refuted : exists (M : Mat f64) n D med,
  diss_matrix M n D /\ no_negative_zero n D /\ metric n (vals D) /\ sizes n (length med) /\ medoids n (length med) med /\
  forall maxiter, exists r, alternating (Lt := f64) M med maxiter = Ok r /\ r_iter r = maxiter /\
    r_med r = (if Nat.even maxiter then [3; 1] else [5; 1]).
Proof.
  exists M_cycle, 6, (fentries rows_cycle), [3; 1].
  assert (h : frows_ok 6 rows_cycle = true) by (vm_compute; reflexivity).
  split; [apply frows_diss; [lia|exact h]|]. split.
  { intros i j hi hj e.
    assert (h' : forallb (fun i => forallb (fun j => match fentries rows_cycle i j with S754_zero true => false | _ => true end)
      (seq 0 6)) (seq 0 6) = true) by (vm_compute; reflexivity).
    pose proof (forallb_seq _ h' hi) as h1. pose proof (forallb_seq _ h1 hj) as h2. cbv beta in h2. rewrite e in h2. discriminate. }
  split; [apply metric_rows; [lia|exact h|vm_compute; reflexivity]|].
  split; [apply sizes_ok; reflexivity|]. split; [apply meds_ok; reflexivity|].
  intros maxiter. unfold alternating.
  replace (assign_nearest (Lt := f64) M_cycle [3; 1]) with (Ok (al_loss (state_a 0), al_assi (state_a 0))) by (vm_compute; reflexivity).
  cbn [bind]. change (mkA [3; 1] (al_assi (state_a 0)) (al_loss (state_a 0)) 0) with (state_a 0).
  destruct (cycle_run maxiter 0) as [-> _]. cbn [bind]. eexists. split; [reflexivity|].
  destruct (Nat.even maxiter); split; reflexivity.
Qed.
Print Assumptions C60_alternating_refuted.

(** ** NaN *)
(** three objects at distance 1 from each other, and a fourth one with unknown distances *)
Definition rows_nan : list (list f64) := Eval vm_compute in
  let o := f64_of_Z 1 in let z := S754_zero false in let x := S754_nan in
  [[z; o; o; x]; [o; z; o; x]; [o; o; z; x]; [x; x; x; z]].
Definition M_nan : Mat f64 := mat_of_rows rows_nan.
Definition state_nan (sw it : nat) : fpst f64 f64 :=
  let o := f64_of_Z 1 in let z := S754_zero false in let x := S754_nan in
  mkFp [2; 3] [mkRec (DP (Some 1) x) (DP (Some 0) o); mkRec (DP (Some 1) x) (DP (Some 0) o);
    mkRec (DP (Some 0) z) (DP (Some 1) x); mkRec (DP (Some 1) z) (DP (Some 0) x)] [x; x] x 2 sw it.

Lemma nan_next sw it : fp_iteration M_nan (seq 0 4) (state_nan sw it) = Ok (Next (state_nan (S (S (S sw))) (S it))).
Proof.
  unfold fp_iteration. set (st := mkFp _ _ _ _ _ _ _).
  replace (forM (fp_cand M_nan) (seq 0 4) st) with (Ok (state_nan (S (S (S sw))) (S it))) by (vm_compute; reflexivity).
  cbn [bind]. change (fp_swaps (state_nan sw it)) with sw. change (fp_swaps (state_nan (S (S (S sw))) (S it))) with (S (S (S sw))).
  replace (S (S (S sw)) =? sw) with false by (symmetry; apply Nat.eqb_neq; lia). reflexivity.
Qed.

Lemma nan_run f : forall sw it,
  exists sw', whileM f (fp_iteration M_nan (seq 0 4)) (state_nan sw it) = Ok (state_nan sw' (it + f)).
Proof.
  induction f as [|f IH]; intros sw it.
  - exists sw. cbn [whileM]. rewrite Nat.add_0_r. auto.
  - cbn [whileM]. rewrite nan_next. cbn [bind]. destruct (IH (S (S (S sw))) (S it)) as [sw' ->].
    exists sw'. rewrite Nat.add_succ_comm. auto.
Qed.

Definition nan_start : fpst f64 f64 :=
  let o := f64_of_Z 1 in let z := S754_zero false in let x := S754_nan in
  mkFp [0; 3] [mkRec (DP (Some 0) z) (DP (Some 1) x); mkRec (DP (Some 0) o) (DP (Some 1) x);
    mkRec (DP (Some 0) o) (DP (Some 1) x); mkRec (DP (Some 1) z) (DP (Some 0) x)] [x; x] (f64_of_Z 2) 4 0 0.

(** Finite dissimilarities are needed: with a NaN, fasterpam may go on swapping for ever, because a
    change of NaN is not [>= 0], and a loss of NaN is not [>=] the previous one. *)
Theorem C60_nan_refuted : exists (M : Mat f64) n D,
  is_matrix M n D /\ (forall i, i < n -> D i i = S754_zero false) /\ (forall i j, i < n -> j < n -> D i j = D j i) /\
  sizes n 2 /\ medoids n 2 [0; 3] /\
  forall maxiter, 1 <= maxiter -> exists r, fasterpam (Lt := f64) M [0; 3] maxiter = Ok r /\ r_iter r = maxiter.
Proof.
  exists M_nan, 4, (fentries rows_nan). split.
  { split; [reflexivity|]. split; [reflexivity|]. intros x y hx hy.
    do 4 (destruct x as [|x]; [do 4 (destruct y as [|y]; [reflexivity|]); lia|]). lia. }
  split; [intros x hx; do 4 (destruct x as [|x]; [reflexivity|]); lia|].
  split; [intros x y hx hy; do 4 (destruct x as [|x]; [do 4 (destruct y as [|y]; [reflexivity|]); lia|]); lia|].
  split; [apply sizes_ok; reflexivity|]. split; [apply meds_ok; reflexivity|].
  intros maxiter hm. destruct maxiter as [|f]; [lia|].
  assert (e1 : initial_assignment (Lt := f64) M_nan [0; 3] = Ok (fp_loss nan_start, fp_data nan_start)) by (vm_compute; reflexivity).
  assert (e2 : update_removal_loss (fp_data nan_start) (repeat (lzero : f64) 2) = Ok (fp_rl nan_start)) by (vm_compute; reflexivity).
  assert (e3 : fp_iteration M_nan (seq 0 4) nan_start = Ok (Next (state_nan 2 1))) by (vm_compute; reflexivity).
  unfold fasterpam, fasterpam_order. change (length [0; 3] =? 1) with false. cbv iota. rewrite e1. cbn [bind].
  change (length [0; 3]) with 2. rewrite e2. cbn [bind]. change (mlen M_nan) with 4. cbn [whileM].
  change (mkFp [0; 3] (fp_data nan_start) (fp_rl nan_start) (fp_loss nan_start) 4 0 0) with nan_start. rewrite e3. cbn [bind].
  destruct (nan_run f 2 1) as [sw' ->]. cbn [bind]. eexists. split; [reflexivity|]. reflexivity.
Qed.
Print Assumptions C60_nan_refuted.
