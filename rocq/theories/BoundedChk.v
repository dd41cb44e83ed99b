(** BoundedChk.v -- builds with overflow checks: if all sums are in the range of the loss type, no check fails.

    The functions of M_Checked.v over a loss type whose operations succeed and are exact up to [B] are compared with
    the run over the unbounded integers, as in Bounded.v: under the same bound they take the same decisions. *)
From Coq Require Import ZArith Lia Permutation.
From Verif Require Import Base Num M_Mat M_Util M_Fasterpam M_Pam M_Alternating M_ParFasterpam M_Checked Inst Hoare
  ParFacts Bounded.
Set Implicit Arguments.
Open Scope Z_scope.

(** the operations which may panic do not, up to [B], and are exact there *)
Record Checks {Lt} (A : arith Lt) (B : Z) (rep : Lt -> Z -> Prop) : Prop := {
  ck_add : forall a b x y, rep a x -> rep b y -> Z.abs (x + y) <= B -> exists c, cadd A a b = Ok c /\ rep c (x + y);
  ck_sub : forall a b x y, rep a x -> rep b y -> Z.abs (x - y) <= B -> exists c, csub A a b = Ok c /\ rep c (x - y);
  ck_neg : forall a x, rep a x -> Z.abs x <= B -> exists c, cneg A a = Ok c /\ rep c (- x)
}.

Lemma rr_fold2 T T' S S' (f : S -> T -> res S) (f' : S' -> T' -> res S') (R : T -> T' -> Prop) (J : nat -> S -> S' -> Prop) (N : nat) l l' :
  (forall t s s' a a', (t < N)%nat -> R a a' -> J t s s' -> rr (J (Datatypes.S t)) (f s a) (f' s' a')) ->
  Forall2 R l l' -> forall t s s', (t + length l <= N)%nat -> J t s s' -> rr (J (t + length l)%nat) (foldM f l s) (foldM f' l' s').
Proof.
  intros h hl. induction hl as [|a a' l l' ha hl IH]; intros t s s' ht hs; cbn [foldM length] in *.
  - rewrite Nat.add_0_r. exact hs.
  - eapply rr_bind; [apply h; eauto; lia|]. intros b b' hb. rewrite <- Nat.add_succ_comm. apply IH; [lia|exact hb].
Qed.

Lemma foldM_ok_fold T S (f : S -> T -> S) l s : foldM (fun s x => Ok (f s x)) l s = Ok (fold_left f l s).
Proof. revert s. induction l as [|a l IH]; intros s; cbn [foldM fold_left bind]; auto. Qed.

Section BoundedChk.
  Context {Nt Lt : Type} `{HNN : NumN Nt} `{HNL : NumL Lt} `{HFN : FromN Nt Lt} `{HFZ : FromN Nt Z}.
  Variable A : arith Lt.
  Variable M : Mat Nt.
  Variable B m : Z.
  Variable rep : Lt -> Z -> Prop.
  Hypothesis HR : Repr B rep.
  Hypothesis HC : Checks A B rep.
  Local Notation n := (Z.of_nat (mlen M)).
  Local Notation val := (fun d : Nt => lfrom d : Z).
  Local Notation okd := (Bounded.okd m rep).
  Local Notation okr := (Bounded.okr m rep).
  Local Notation okdata := (Bounded.okdata M m rep).
  Local Notation bd := (Bounded.bd rep).

  Hypothesis Hget : forall x y d, mget M x y = Ok d -> okd d.
  Hypothesis Hzero : okd nzero.
  Hypothesis HB : 3 * n * m <= B.

  Lemma m0 : 0 <= m.
  Proof. destruct Hzero as [h _]. lia. Qed.
  Lemma bd_mono b c a x : bd b a x -> b <= c -> bd c a x.
  Proof. intros [h1 h2] h. split; auto. lia. Qed.
  Lemma bd_zero b : 0 <= b -> bd b lzero 0.
  Proof. split; [apply (rp_zero HR)|lia]. Qed.
  Lemma bd_add b c a x a' x' : bd b a x -> bd c a' x' -> b + c <= B -> rr (bd (b + c)) (cadd A a a') (Ok (x + x')).
  Proof.
    intros [h1 h2] [h3 h4] h. destruct (ck_add HC _ _ _ _ h1 h3) as (d & e & hd); [lia|]. rewrite e. split; [exact hd|lia].
  Qed.
  Lemma bd_from d : okd d -> bd m (lfrom d) (val d).
  Proof. intros [h1 h2]. split; auto. lia. Qed.
  Lemma bd_diff d d' : okd d -> okd d' -> m <= B -> rr (bd m) (csub A (lfrom d) (lfrom d')) (Ok (val d - val d')).
  Proof.
    intros [h1 h2] [h3 h4] h. destruct (ck_sub HC _ _ _ _ h2 h4) as (e & he & hd); [lia|]. rewrite he. split; [exact hd|lia].
  Qed.
  Lemma bd_neg b a x : bd b a x -> b <= B -> rr (bd b) (cneg A a) (Ok (- x)).
  Proof.
    intros [h1 h2] h. destruct (ck_neg HC _ _ h1) as (d & e & hd); [lia|]. rewrite e. split; [exact hd|lia].
  Qed.
  Lemma bd_lt b c a x a' x' : bd b a x -> bd c a' x' -> lltb a a' = lltb x x'.
  Proof. intros [h1 _] [h2 _]. apply (rp_lt HR); auto. Qed.
  Lemma bd_le b c a x a' x' : bd b a x -> bd c a' x' -> lleb a a' = lleb x x'.
  Proof. intros [h1 _] [h2 _]. apply (rp_le HR); auto. Qed.
  Lemma nm k : (k <= mlen M)%nat -> Z.of_nat k * m <= B.
  Proof. intros h. pose proof m0. nia. Qed.
  Lemma mb : (1 <= mlen M)%nat -> m <= B.
  Proof. intros h. pose proof m0. nia. Qed.

  Lemma rr_ok C C' (S : C -> C' -> Prop) (x : res C) (y : C') : rr S x (Ok y) -> exists a, x = Ok a /\ S a y.
  Proof. destruct x as [a|p]; cbn [rr]; [eauto|tauto]. Qed.
  Local Ltac step h := let a := fresh "z" in let e := fresh "ez" in let h1 := fresh "hz" in
    destruct (@rr_ok _ _ _ _ _ h) as (a & e & h1); rewrite e; cbn [bind]; clear e.

  (** a sum of at most [n] terms *)
  Lemma reduce_bd (l : list Lt) (l' : list Z) : Forall2 (bd m) l l' -> Z.of_nat (length l) * m <= B ->
    rr (fun o o' => match o, o' with Some a, Some x => bd (Z.of_nat (length l) * m) a x | None, None => True | _, _ => False end)
       (reduce_c A l) (Ok (reduce ladd l')).
  Proof.
    intros h hb. pose proof m0. destruct h as [|y y' l l' hy hl]; cbn [reduce reduce_c rr]; auto.
    assert (G : rr (fun a x => bd (Z.of_nat (1 + length l) * m) a x) (foldM (cadd A) l y)
                   (foldM (fun s x => Ok (ladd s x)) l' y')).
    { apply (@rr_fold2 Lt Z Lt Z (cadd A) (fun s x => Ok (ladd s x)) (bd m) (fun t => bd (Z.of_nat t * m)) (length (y :: l)) l l').
      - intros t s s' a a' ht ha hs. rewrite Nat2Z.inj_succ, Z.mul_succ_l. apply bd_add; auto.
        rewrite <- Z.mul_succ_l. nia.
      - exact hl.
      - cbn [length]. lia.
      - rewrite Z.mul_1_l. exact hy. }
    rewrite (foldM_ok_fold (fun s x => ladd s x)) in G.
    destruct (foldM (cadd A) l y) as [a|p]; cbn [bind rr] in *; auto.
  Qed.

  (** *** facts of Bounded.v *)
  Local Notation same_result := (Bounded.same_result M m rep).
  Local Notation same_rec := (Bounded.same_rec m rep).
  Local Notation same_ld := (Bounded.same_ld M m rep).
  Local Notation same_change := (Bounded.same_change B rep).
  Local Notation same_mdl := (Bounded.same_mdl M m rep).
  Local Notation same_fp := (Bounded.same_fp M m rep).
  Local Notation same_p := (Bounded.same_p M m rep).
  Local Notation same_best := (Bounded.same_best B rep).
  Local Notation same_b := (Bounded.same_b M m rep).
  Local Notation same_opt := (Bounded.same_opt m rep).

  Lemma find_min_rr l l' b : Forall2 (bd b) l l' ->
    rr (fun p p' => fst p = fst p' /\ bd b (snd p) (snd p')) (find_min l) (find_min l').
  Proof. intros h. eapply Bounded.find_min_rr; eauto. Qed.
  Lemma enum_len T (l : list T) : length (enum l) = length l.
  Proof. exact (Bounded.enum_len M l). Qed.
  Lemma nth_error_enum_lt T (l : list T) t p : nth_error (enum l) t = Some p -> (t < length l)%nat /\ In (snd p) l.
  Proof. intros h. exact (Bounded.nth_error_enum_lt M l t h). Qed.
  Lemma ia_obj_rr med fc i : rr same_rec (ia_obj (Lt := Lt) M med fc i) (ia_obj (Lt := Z) M med fc i).
  Proof. eapply Bounded.ia_obj_rr; eauto. Qed.
  Lemma repeat_bd k b : 0 <= b -> Forall2 (bd b) (repeat lzero k) (repeat lzero k).
  Proof. intros h. eapply Bounded.repeat_bd; eauto. Qed.
  Lemma do_swap_obj_rr med b j p : okr (snd p) ->
    rr same_rec (do_swap_obj (Lt := Lt) M med b j p) (do_swap_obj (Lt := Z) M med b j p).
  Proof. intros h. eapply Bounded.do_swap_obj_rr; eauto. Qed.
  Lemma par_do_swap_obj_rr med b j p : okr (snd p) ->
    rr same_rec (par_do_swap_obj (Lt := Lt) M med b j p) (par_do_swap_obj (Lt := Z) M med b j p).
  Proof. intros h. eapply Bounded.par_do_swap_obj_rr; eauto. Qed.
  Lemma best0 T (x : T) : same_best (lzero, x) (lzero, x).
  Proof. eapply Bounded.best0; eauto. Qed.
  Lemma build_upd_obj_rr l bj p : okr (snd p) ->
    rr (fun q q' => fst q = fst q' /\ okr (fst q) /\ same_opt (snd q) (snd q'))
       (build_upd_obj (Lt := Lt) M l bj p) (build_upd_obj (Lt := Z) M l bj p).
  Proof. intros h. eapply Bounded.build_upd_obj_rr; eauto. Qed.
  Lemma an_obj_rr med fc i :
    rr (fun p p' => fst p = fst p' /\ bd m (snd p) (snd p')) (an_obj (Lt := Lt) M med fc i) (an_obj (Lt := Z) M med fc i).
  Proof. eapply Bounded.an_obj_rr; eauto. Qed.

  Lemma add_at_rr l l' i x x' b c : Forall2 (bd b) l l' -> bd c x x' -> 0 <= c -> b + c <= B ->
    rr (Forall2 (bd (b + c))) (add_at_c A l i x) (add_at l' i x').
  Proof.
    intros h hx hc hb. unfold add_at_c, add_at. eapply rr_bind; [apply idx_rr; exact h|].
    intros y y' hy. step (bd_add hy hx hb). apply upd_rr.
    - eapply Forall2_mono; [exact h|]. intros a a' ha. eapply bd_mono; [exact ha|lia].
    - exact hz.
  Qed.

  Lemma member_sum_rr assi c i : (length assi <= mlen M)%nat ->
    rr (bd (n * m)) (member_sum_c A M assi c i) (member_sum (Lt := Z) M assi c i).
  Proof.
    intros hl. pose proof m0. unfold member_sum_c, member_sum.
    eapply rr_mono; [apply rr_foldM with (I := fun t s s' => bd (Z.of_nat t * m) s s')|].
    - intros t [j a] s s' ht hs.
      assert (htn : (t < mlen M)%nat).
      { assert (t < length (enum assi))%nat by (apply nth_error_Some; congruence).
        unfold enum in *. rewrite combine_length, seq_length in *. lia. }
      destruct (negb (i =? j)%nat && (a =? c)%nat).
      + destruct (mget M i j) as [d|p] eqn:e; cbn [bind rr]; auto.
        rewrite Nat2Z.inj_succ, Z.mul_succ_l. apply bd_add; [exact hs|apply bd_from; eauto|nia].
      + cbn [rr]. eapply bd_mono; [exact hs|nia].
    - apply bd_zero. lia.
    - cbv beta. intros s s' hs. eapply bd_mono; [exact hs|].
      assert (length (enum assi) <= mlen M)%nat by (unfold enum; rewrite combine_length, seq_length; lia). nia.
  Qed.

  Lemma choose_rr assi med c : (length assi <= mlen M)%nat ->
    rr (fun p p' => fst p = fst p' /\ bd (n * m) (snd p) (snd p'))
       (choose_c A M assi med c)
       (choose_medoid_within_partition (Lt := Z) M assi med c).
  Proof.
    intros hl. unfold choose_c, choose_medoid_within_partition.
    destruct (idx med c) as [first|p]; cbn [bind rr]; auto.
    eapply rr_bind; [apply member_sum_rr; auto|]. intros s s' hs.
    eapply rr_bind.
    - apply rr_foldM with (I := fun _ (p : nat * Lt) (p' : nat * Z) => fst p = fst p' /\ bd (n * m) (snd p) (snd p')).
      + intros t [j a] p p' _ hp. destruct (negb (j =? first)%nat && (a =? c)%nat); [|exact hp].
        eapply rr_bind; [apply member_sum_rr; auto|]. intros x x' hx.
        rewrite (bd_lt hx (proj2 hp)). destruct (lltb x' (snd p')); simpl; auto.
      + auto.
    - intros [b x] [b' x'] [e hx]. cbn [fst snd] in *. subst b'.
      destruct (upd med c b) as [med'|p]; cbn [bind rr fst snd]; auto.
  Qed.

  Lemma single_rr med : rr same_result (single_medoid_c A M med) (single_medoid (Lt := Z) M med).
  Proof.
    unfold single_medoid_c, single_medoid. eapply rr_bind; [apply choose_rr; rewrite repeat_length; auto|].
    intros [[md sw] l] [[md' sw'] l'] [e hl]. cbn [fst snd] in *. injection e as <- <-.
    simpl. repeat split; auto; apply hl.
  Qed.

  Lemma initial_assignment_rr med :
    rr same_ld (initial_assignment_c A M med) (initial_assignment (Lt := Z) M med).
  Proof.
    unfold initial_assignment_c, initial_assignment. destruct (check_input M (length med)) as [u|p]; cbn [bind rr]; auto.
    destruct (idx med 0) as [fc|p]; cbn [bind rr]; auto.
    eapply rr_bind; [apply mapM_rr; intros; apply ia_obj_rr|].
    intros rs rs' [h hl]. rewrite seq_length in hl. destruct (same_recs h) as (h1 & h2 & h3).
    assert (hn : Z.of_nat (length (map snd rs)) * m <= B) by (rewrite map_length, hl; apply nm; lia).
    step (reduce_bd h3 hn). destruct z as [x|], (reduce ladd (map snd rs')) as [x'|]; try contradiction; [|reflexivity].
    cbn [unwrap bind]. rename hz into hx. rewrite map_length, hl in hx. cbn [rr]. split; [exact h1|]. split; [|exact hx].
    split; [cbn [snd]; rewrite map_length; auto|exact h2].
  Qed.

  Lemma update_removal_loss_rr data rl rl' : okdata data -> length rl = length rl' ->
    rr (Forall2 (bd (n * m))) (update_removal_loss_c A data rl) (update_removal_loss (Lt := Z) data rl').
  Proof.
    intros [hl hd] hrl. pose proof m0. unfold update_removal_loss_c, update_removal_loss.
    eapply rr_mono; [apply rr_foldM with (I := fun t => Forall2 (bd (Z.of_nat t * m)))|].
    - intros t r s s' ht hs. assert (htn : (t < mlen M)%nat) by (rewrite <- hl; apply nth_error_Some; congruence).
      rewrite Forall_forall in hd. destruct (hd r) as [r1 r2]; [eapply nth_error_In; eauto|].
      rewrite Nat2Z.inj_succ, Z.mul_succ_l.
      assert (hmb : m <= B) by (apply mb; lia). step (bd_diff r2 r1 hmb). apply add_at_rr; auto. nia.
    - rewrite hrl. apply repeat_bd. lia.
    - cbv beta. intros s s' hs. rewrite hl in hs. exact hs.
  Qed.

  Lemma fbs_step_rr j (pl : list Lt) (acc : Lt) pl' acc' b c p : okr (snd p) -> m <= B ->
    Forall2 (bd b) pl pl' -> bd c acc acc' -> b + m <= B -> c + m <= B ->
    rr (fun s s' => Forall2 (bd (b + m)) (fst s) (fst s') /\ bd (c + m) (snd s) (snd s'))
       (fbs_step_c A M j (pl, acc) p) (fbs_step (Lt := Z) M j (pl', acc') p).
  Proof.
    intros [r1 r2] hm hpl hacc hb hc. pose proof m0. destruct p as [o r]. cbn [snd] in *. unfold fbs_step_c, fbs_step.
    destruct (mget M o j) as [doj|q] eqn:e; cbn [bind rr]; auto. apply Hget in e.
    destruct (nltb doj (dd (near r))).
    - step (bd_diff e r1 hm). step (bd_add hacc hz hc). step (bd_diff r1 r2 hm).
      eapply rr_bind; [apply add_at_rr; eauto|]. intros q q' hq. cbn [rr fst snd]. split; [exact hq|exact hz0].
    - destruct (nltb doj (dd (seco r))).
      + step (bd_diff e r2 hm). eapply rr_bind; [apply add_at_rr; eauto|]. intros q q' hq. cbn [rr fst snd].
        split; [exact hq|]. eapply bd_mono; [exact hacc|lia].
      + cbn [rr fst snd]. split; [|eapply bd_mono; [exact hacc|lia]].
        eapply Forall2_mono; [exact hpl|]. intros a a' ha. eapply bd_mono; [exact ha|lia].
  Qed.

  Lemma fbs_fold_rr j (l : list (nat * Rec Nt)) b c : (forall p, In p l -> okr (snd p)) ->
    b + Z.of_nat (length l) * m <= B -> c + Z.of_nat (length l) * m <= B -> 0 <= b -> 0 <= c ->
    forall (pl : list Lt) (acc : Lt) pl' acc', Forall2 (bd b) pl pl' -> bd c acc acc' ->
    rr (fun s s' => Forall2 (bd (b + Z.of_nat (length l) * m)) (fst s) (fst s') /\
                    bd (c + Z.of_nat (length l) * m) (snd s) (snd s'))
       (foldM (fbs_step_c A M j) l (pl, acc)) (foldM (fbs_step (Lt := Z) M j) l (pl', acc')).
  Proof.
    intros hd hb hc h0 h0' pl acc pl' acc' hpl hacc. pose proof m0.
    apply rr_foldM with (I := fun t (s : list Lt * Lt) (s' : list Z * Z) =>
      Forall2 (bd (b + Z.of_nat t * m)) (fst s) (fst s') /\ bd (c + Z.of_nat t * m) (snd s) (snd s')).
    - intros t p [q ac] [q' ac'] ht [hq ha]. cbn [fst snd] in *.
      assert (htl : (t < length l)%nat) by (apply nth_error_Some; congruence).
      eapply rr_mono; [apply fbs_step_rr with (b := b + Z.of_nat t * m) (c := c + Z.of_nat t * m); auto; try nia|].
      + apply hd. eapply nth_error_In; eauto.
      + cbv beta. intros s s' hs. rewrite Nat2Z.inj_succ, Z.mul_succ_l, !Z.add_assoc. exact hs.
    - cbn [fst snd]. rewrite Z.mul_0_l, !Z.add_0_r. auto.
  Qed.

  Lemma find_best_swap_rr rl rl' data j : okdata data -> Forall2 (bd (n * m)) rl rl' ->
    rr same_change (find_best_swap_c A M rl data j) (find_best_swap (Lt := Z) M rl' data j).
  Proof.
    intros hd hrl. pose proof m0. unfold find_best_swap_c, find_best_swap.
    assert (hl : length (enum data) = mlen M) by (rewrite enum_len; apply hd).
    eapply rr_bind; [apply fbs_fold_rr with (b := n * m) (c := 0); rewrite ?hl; try nia; auto|].
    - intros p. eapply okdata_enum; eauto.
    - apply bd_zero. lia.
    - rewrite hl. intros [pl ac] [pl' ac'] [h1 h2]. cbn [fst snd] in *.
      eapply rr_bind; [apply find_min_rr; exact h1|]. intros [b x] [b' x'] [e hx]. cbn [fst snd] in *. subst b'.
      assert (hs : n * m + n * m + (0 + n * m) <= B) by nia. step (bd_add hx h2 hs).
      cbn [rr]. split; [auto|]. cbn [fst]. eapply bd_mono; [exact hz|nia].
  Qed.

  Lemma do_swap_rr med data b j : okdata data ->
    rr same_mdl (do_swap_c A M med data b j) (do_swap (Lt := Z) M med data b j).
  Proof.
    intros hd. unfold do_swap_c, do_swap.
    destruct (assertb (b <? length med)%nat P_assert) as [u|p]; cbn [bind rr]; auto.
    destruct (assertb (j <? mlen M)%nat P_assert) as [u'|p]; cbn [bind rr]; auto.
    destruct (upd med b j) as [med'|p]; cbn [bind rr]; auto.
    eapply rr_bind; [apply mapM_rr; intros p hp; apply do_swap_obj_rr; eapply okdata_enum; eauto|].
    intros rs rs' [h hl]. rewrite enum_len, (proj1 hd) in hl. destruct (same_recs h) as (h1 & h2 & h3).
    assert (hn : Z.of_nat (length (map snd rs)) * m <= B) by (rewrite map_length, hl; apply nm; lia).
    step (reduce_bd h3 hn). destruct z as [x|], (reduce ladd (map snd rs')) as [x'|]; try contradiction; [|reflexivity].
    cbn [unwrap bind]. rename hz into hx. rewrite map_length, hl in hx. cbn [rr]. split; [cbn [fst]; congruence|].
    split; [|exact hx]. split; [cbn [fst snd]; rewrite map_length; auto|exact h2].
  Qed.

  Lemma fp_cand_rr s s' j : same_fp s s' -> rr (rc same_fp) (fp_cand_c A M s j) (fp_cand M s' j).
  Proof.
    intros hs. pose proof hs as [e1 e2 e3 e4 e5 hok hrl hloss]. unfold fp_cand_c, fp_cand. rewrite <- e1, <- e2, <- e3, <- e4, <- e5.
    destruct (j =? fp_last s)%nat; [exact hs|].
    destruct (idx (fp_data s) j) as [rj|p]; cbn [bind rr]; auto.
    destruct (idx (fp_med s) (as_usize (di (near rj)))) as [mj|p]; cbn [bind rr]; auto.
    destruct (j =? mj)%nat; [exact hs|].
    eapply rr_bind; [apply find_best_swap_rr; auto|]. intros [x b] [x' b'] [eb hx]. cbn [fst snd] in *. subst b'.
    assert (h0 : bd 0 lzero 0) by (apply bd_zero; lia). rewrite (bd_le h0 hx). change 0 with (lzero : Z).
    destruct (lleb lzero x'); [exact hs|].
    eapply rr_bind; [apply do_swap_rr; auto|]. intros [[md dt] l] [[md' dt'] l'] (e & hd & hl). cbn [fst snd] in *.
    injection e as <- <-.
    eapply rr_bind; [apply update_removal_loss_rr; [exact hd|eapply Forall2_len; eauto]|].
    intros r r' hr. cbn [rr rc]. constructor; cbn; auto.
  Qed.

  Lemma fp_iteration_rr order s s' : same_fp s s' ->
    rr (rc same_fp) (fp_iteration_c A M order s) (fp_iteration M order s').
  Proof.
    intros hs. pose proof hs as [e1 e2 e3 e4 e5 hok hrl hloss]. unfold fp_iteration_c, fp_iteration.
    eapply rr_bind.
    - apply rr_forM with (R := same_fp).
      + intros j t t' _ ht. apply fp_cand_rr. exact ht.
      + constructor; cbn; auto.
    - intros t t' ht. pose proof ht as [f1 f2 f3 f4 f5 gok grl gloss].
      rewrite <- f4, <- e4, (bd_le hloss gloss).
      destruct (_ || _); cbn [rr rc]; exact ht.
  Qed.

  Theorem fasterpam_order_rr order med maxiter :
    rr same_result (fasterpam_order_c A M order med maxiter) (fasterpam_order (Lt := Z) M order med maxiter).
  Proof.
    unfold fasterpam_order_c, fasterpam_order. destruct (length med =? 1)%nat; [apply single_rr|].
    eapply rr_bind; [apply initial_assignment_rr|]. intros [l d] [l' d'] (e & hd & hl). cbn [fst snd] in *. subst d'.
    eapply rr_bind; [apply update_removal_loss_rr; [exact hd|rewrite !repeat_length; auto]|]. intros rl rl' hrl.
    eapply rr_bind; [apply rr_whileM with (R := same_fp); [intros; apply fp_iteration_rr; auto|constructor; cbn; auto]|].
    intros t t' [f1 f2 f3 f4 f5 gok grl gloss]. cbn [rr]. repeat split; cbn; try apply gloss; congruence.
  Qed.

  Lemma fastpam1_cand_rr med data rl rl' best best' j : okdata data -> Forall2 (bd (n * m)) rl rl' ->
    same_best best best' ->
    rr same_best (fastpam1_cand_c A M med data rl best j) (fastpam1_cand (Lt := Z) M med data rl' best' j).
  Proof.
    intros hd hrl hb. unfold fastpam1_cand_c, fastpam1_cand. destruct (idx data j) as [rj|p]; cbn [bind rr]; auto.
    destruct (idx med _) as [mj|p]; cbn [bind rr]; auto. destruct (j =? mj)%nat; [exact hb|].
    eapply rr_bind; [apply find_best_swap_rr; eauto|]. intros [x b] [x' b'] [eb hx]. cbn [fst snd] in *. subst b'.
    rewrite (bd_le (proj2 hb) hx). destruct (lleb (fst best') x'); cbn [rr]; [exact hb|]. split; auto.
  Qed.

  Lemma swap_best_rr s s' rl rl' best best' : same_p s s' -> Forall2 (bd (n * m)) rl rl' -> same_best best best' ->
    rr (rc same_p) (swap_best_c A M s rl best) (swap_best M s' rl' best').
  Proof.
    intros hs hrl [e hb]. pose proof hs as [e1 e2 e3 e4 hok hr hl]. unfold swap_best_c, swap_best.
    assert (h0 : bd 0 lzero 0) by (apply bd_zero; lia). rewrite (bd_lt hb h0). change 0 with (lzero : Z).
    destruct (lltb (fst best') lzero); [|cbn [rr rc]; constructor; cbn; auto].
    rewrite <- e, <- e1, <- e2. destruct (snd best) as [[b j]|]; [|cbn [rr]; auto].
    eapply rr_bind; [apply do_swap_rr; auto|]. intros [[md dt] l] [[md' dt'] l'] (f & hd & hl'). cbn [fst snd] in *.
    injection f as <- <-. rewrite (bd_le hl hl').
    destruct (lleb (p_loss s') l'); cbn [rr rc]; constructor; cbn; auto.
  Qed.

  Theorem fastpam1_rr med maxiter :
    rr same_result (fastpam1_c A M med maxiter) (fastpam1 (Lt := Z) M med maxiter).
  Proof.
    unfold fastpam1_c, fastpam1. pose proof m0. destruct (length med =? 1)%nat; [apply single_rr|].
    eapply rr_bind; [apply initial_assignment_rr|]. intros [l d] [l' d'] (e & hd & hl). cbn [fst snd] in *. subst d'.
    eapply rr_bind.
    - apply rr_whileM with (R := same_p).
      + intros s s' [e1 e2 e3 e4 hok hr hls]. unfold fastpam1_iteration_c, fastpam1_iteration. cbn [p_med p_data p_rl p_loss p_swaps p_iter].
        rewrite <- e1, <- e2, <- e3, <- e4.
        eapply rr_bind; [apply update_removal_loss_rr; [exact hok|eapply Forall2_len; eauto]|]. intros rl rl' hrl.
        eapply rr_bind.
        * apply rr_foldM with (I := fun _ => same_best); [|apply best0].
          intros t j b b' _ hb. apply fastpam1_cand_rr; auto.
        * intros b b' hb. apply swap_best_rr; auto. constructor; cbn; auto.
      + constructor; cbn [p_med p_data p_rl p_loss p_swaps p_iter]; auto. apply repeat_bd. nia.
    - intros t t' [f1 f2 f3 f4 gok grl gloss]. cbn [rr]. repeat split; cbn; try apply gloss; congruence.
  Qed.

  Lemma pam_change_step_rr j q (acc : Lt) acc' p c : okr (snd p) -> m <= B -> bd c acc acc' -> c + m <= B ->
    rr (bd (c + m)) (pam_change_step_c A M j q acc p) (pam_change_step (Lt := Z) M j q acc' p).
  Proof.
    intros [r1 r2] hm hacc hc. destruct p as [o r]. cbn [snd] in *. unfold pam_change_step_c, pam_change_step. pose proof m0.
    assert (hacc1 : bd (c + m) acc acc') by (eapply bd_mono; [exact hacc|lia]).
    destruct (o =? j)%nat; [exact hacc1|].
    destruct (mget M o j) as [doj|e0] eqn:e; cbn [bind rr]; auto. apply Hget in e.
    destruct (_ =? q)%nat; [|destruct (nltb doj (dd (near r)))]; auto.
    - destruct (nltb doj (dd (seco r))); [step (bd_diff e r1 hm)|step (bd_diff r2 r1 hm)]; apply bd_add; auto.
    - step (bd_diff e r1 hm). apply bd_add; auto.
  Qed.

  Lemma find_best_swap_pam_rr med data j : okdata data ->
    rr same_best (find_best_swap_pam_c A M med data j) (find_best_swap_pam (Lt := Z) M med data j).
  Proof.
    intros hd. unfold find_best_swap_pam_c, find_best_swap_pam. pose proof m0. destruct (idx data j) as [rj|p] eqn:e; cbn [bind rr]; auto.
    destruct (okdata_idx _ hd e) as [hr h1].
    apply rr_foldM with (I := fun _ => same_best); [|apply best0].
    intros t q b b' _ hb. step (bd_neg (bd_from (proj1 hr)) (mb h1)). eapply rr_bind.
    - apply rr_foldM with (I := fun t => bd (m + Z.of_nat t * m)).
      + intros i p s s' hi hs. destruct (nth_error_enum_lt _ _ hi) as [hi1 hi2]. rewrite (proj1 hd) in hi1.
        rewrite Nat2Z.inj_succ, Z.mul_succ_l, Z.add_assoc.
        apply pam_change_step_rr; auto; [|apply mb; auto|nia].
        destruct hd as [_ hd]. rewrite Forall_forall in hd. auto.
      + rewrite Z.mul_0_l, Z.add_0_r. exact hz.
    - cbv beta. rewrite enum_len, (proj1 hd). intros x x' hx. rewrite (bd_lt hx (proj2 hb)).
      destruct (lltb x' (fst b')); cbn [rr]; [|exact hb]. split; auto. cbn [fst]. eapply bd_mono; [exact hx|nia].
  Qed.

  Lemma pam_cand_rr med data best best' j : okdata data -> same_best best best' ->
    rr same_best (pam_cand_c A M med data best j) (pam_cand (Lt := Z) M med data best' j).
  Proof.
    intros hd hb. unfold pam_cand_c, pam_cand. destruct (idx data j) as [rj|p]; cbn [bind rr]; auto.
    destruct (idx med _) as [mj|p]; cbn [bind rr]; auto. destruct (j =? mj)%nat; [exact hb|].
    eapply rr_bind; [apply find_best_swap_pam_rr; eauto|]. intros [x b] [x' b'] [eb hx]. cbn [fst snd] in *. subst b'.
    rewrite (bd_le (proj2 hb) hx). destruct (lleb (fst best') x'); cbn [rr]; [exact hb|]. split; auto.
  Qed.

  Lemma pam_optimize_rr med data maxiter l l' : okdata data -> bd (n * m) l l' ->
    rr same_result (pam_optimize_c A M med data maxiter l) (pam_optimize (Lt := Z) M med data maxiter l').
  Proof.
    intros hd hl. unfold pam_optimize_c, pam_optimize. destruct (length med =? 1)%nat; [apply single_rr|].
    eapply rr_bind.
    - apply rr_whileM with (R := same_p).
      + intros s s' [e1 e2 e3 e4 hok hr hls]. unfold pam_iteration_c, pam_iteration. cbn [p_med p_data p_rl p_loss p_swaps p_iter].
        rewrite <- e1, <- e2, <- e3, <- e4.
        eapply rr_bind.
        * apply rr_foldM with (I := fun _ => same_best); [|apply best0].
          intros t j b b' _ hb. apply pam_cand_rr; auto.
        * intros b b' hb. apply swap_best_rr; auto. constructor; cbn; auto.
      + constructor; cbn; auto.
    - intros t t' [f1 f2 f3 f4 gok grl gloss]. cbn [rr]. repeat split; cbn; try apply gloss; congruence.
  Qed.

  Theorem pam_swap_rr med maxiter :
    rr same_result (pam_swap_c A M med maxiter) (pam_swap (Lt := Z) M med maxiter).
  Proof.
    unfold pam_swap_c, pam_swap.
    eapply rr_bind; [apply initial_assignment_rr|]. intros [l d] [l' d'] (e & hd & hl). cbn [fst snd] in *. subst d'.
    apply pam_optimize_rr; auto.
  Qed.

  (** ** BUILD *)
  Lemma build_first_sum_rr i : rr (bd (n * m)) (build_first_sum_c A M i) (build_first_sum (Lt := Z) M i).
  Proof.
    unfold build_first_sum_c, build_first_sum. pose proof m0.
    eapply rr_mono; [apply rr_foldM with (I := fun t => bd (Z.of_nat t * m))|].
    - intros t j s s' ht hs.
      assert (htn : (t < mlen M)%nat) by (rewrite <- (seq_length (mlen M) 0); apply nth_error_Some; congruence).
      rewrite Nat2Z.inj_succ, Z.mul_succ_l. destruct (negb (j =? i)%nat).
      + destruct (mget M j i) as [d|p] eqn:e; cbn [bind rr]; auto. apply bd_add; [auto|apply bd_from; eauto|nia].
      + cbn [rr]. eapply bd_mono; [exact hs|lia].
    - apply bd_zero. lia.
    - cbv beta. rewrite seq_length. auto.
  Qed.

  Lemma build_first_rr k :
    rr (fun p p' => snd p = snd p' /\ bd (n * m) (fst p) (fst p')) (build_first_c A M k) (build_first (Lt := Z) M k).
  Proof.
    unfold build_first_c, build_first. pose proof m0.
    apply rr_foldM with (I := fun _ (p : Lt * nat) (p' : Z * nat) => snd p = snd p' /\ bd (n * m) (fst p) (fst p')).
    - intros t i b b' _ hb. eapply rr_bind; [apply build_first_sum_rr|]. intros x x' hx.
      rewrite (bd_lt hx (proj2 hb)). destruct (_ || _); cbn [rr]; auto.
    - split; auto. apply bd_zero. nia.
  Qed.

  Lemma build_next_sum_rr dn i : length dn = mlen M -> Forall okd dn ->
    rr (bd B) (build_next_sum_c A M dn i) (build_next_sum (Lt := Z) M dn i).
  Proof.
    intros hl hd. unfold build_next_sum_c, build_next_sum. pose proof m0. rewrite Forall_forall in hd.
    destruct (idx dn i) as [d0|p] eqn:e0; cbn [bind rr]; auto.
    unfold idx in e0. destruct (nth_error dn i) as [x|] eqn:ex; [|discriminate]. injection e0 as ->.
    assert (h1 : (1 <= mlen M)%nat).
    { assert (i < length dn)%nat by (apply nth_error_Some; congruence). lia. }
    assert (hd0 : okd d0) by (apply hd; eapply nth_error_In; eauto). step (bd_neg (bd_from hd0) (mb h1)).
    eapply rr_mono; [apply rr_foldM with (I := fun t => bd (m + Z.of_nat t * m))|].
    - intros t [j dj] s s' ht hs. destruct (nth_error_enum_lt _ _ ht) as [ht1 ht2]. rewrite hl in ht1. cbn [snd] in *.
      rewrite Nat2Z.inj_succ, Z.mul_succ_l, Z.add_assoc.
      assert (hs1 : bd (m + Z.of_nat t * m + m) s s') by (eapply bd_mono; [exact hs|lia]).
      destruct (negb (j =? i)%nat); [|exact hs1].
      destruct (mget M j i) as [d|p] eqn:e; cbn [bind rr]; auto. apply Hget in e.
      destruct (nltb d dj); auto. step (bd_diff e (hd _ ht2) (mb h1)). apply bd_add; [auto|exact hz0|nia].
    - rewrite Z.mul_0_l, Z.add_0_r. exact hz.
    - cbv beta. rewrite enum_len, hl. intros s s' hs. eapply bd_mono; [exact hs|nia].
  Qed.

  Lemma build_next_rr k dn cands : length dn = mlen M -> Forall okd dn ->
    rr same_best (build_next_c A M k dn cands) (build_next (Lt := Z) M k dn cands).
  Proof.
    intros hl hd. unfold build_next_c, build_next. apply rr_foldM with (I := fun _ => same_best); [|apply best0].
    intros t i b b' _ hb. eapply rr_bind; [apply build_next_sum_rr; auto|]. intros x x' hx.
    rewrite (bd_lt hx (proj2 hb)). destruct (_ || _); cbn [rr]; [split|]; auto.
  Qed.

  Lemma build_step_rr k s s' l : same_b s s' ->
    rr (rc same_b) (build_step_c A M k s l) (build_step M k s' l).
  Proof.
    intros hs. pose proof hs as [e1 e2 hok hl]. unfold build_step_c, build_step. pose proof m0. rewrite <- e1, <- e2.
    eapply rr_bind.
    - apply build_next_rr; [rewrite map_length; apply hok|]. destruct hok as [_ hd].
      rewrite Forall_forall in *. intros d hin. apply in_map_iff in hin as (r & <- & hr). apply hd. auto.
    - intros [x b] [x' b'] [e hx]. cbn [fst snd] in *. subst b'.
      assert (h0 : bd 0 lzero 0) by (apply bd_zero; lia). rewrite (bd_le h0 hx). change 0 with (lzero : Z).
      destruct (lleb lzero x'); [exact hs|].
      eapply rr_bind; [apply mapM_rr; intros p hp; apply build_upd_obj_rr; eapply okdata_enum; eauto|].
      intros rs rs' [h hlen]. rewrite enum_len, (proj1 hok) in hlen.
      assert (G : map fst rs = map fst rs' /\ Forall okr (map fst rs)).
      { clear -h. induction h as [|p p' rs rs' (h1 & h2 & h3) hrs (IH1 & IH2)]; cbn [map]; auto.
        split; [congruence|]. auto. }
      assert (F : rr (bd (Z.of_nat (0 + length rs) * m))
          (foldM (fun s x => match snd x with Some v => cadd A s v | None => Ok s end) rs lzero)
          (foldM (fun s x => Ok (match snd x with Some v => ladd s v | None => s end)) rs' (lzero : Z))).
      { apply (@rr_fold2 (Rec Nt * option Lt) (Rec Nt * option Z) Lt Z
                 (fun s x => match snd x with Some v => cadd A s v | None => Ok s end)
                 (fun s x => Ok (match snd x with Some v => ladd s v | None => s end))
                 (fun q q' => fst q = fst q' /\ okr (fst q) /\ same_opt (snd q) (snd q'))
                 (fun t => bd (Z.of_nat t * m)) (length rs) rs rs').
        - intros t a y [p o] [p' o'] ht (_ & _ & ho) ha. cbn [snd] in *. rewrite Nat2Z.inj_succ, Z.mul_succ_l.
          destruct o, o'; cbn in ho; try tauto.
          + apply bd_add; auto. nia.
          + cbn [rr]. eapply bd_mono; [exact ha|lia].
        - exact h.
        - lia.
        - apply bd_zero. lia. }
      rewrite (foldM_ok_fold (fun s x => match snd x with Some v => ladd s v | None => s end)) in F.
      step F. cbn [Nat.add] in hz. rewrite hlen in hz.
      cbn [rr rc]. constructor; cbn [b_meds b_data b_loss].
      + auto.
      + apply G.
      + split; [rewrite map_length; auto|apply G].
      + exact hz.
  Qed.

  Lemma pam_build_initialize_rr k :
    rr same_b (pam_build_initialize_c A M k) (pam_build_initialize (Lt := Z) M k).
  Proof.
    unfold pam_build_initialize_c, pam_build_initialize. destruct (msquare M) as [sq|p]; cbn [bind rr]; auto.
    destruct (assertb sq P_not_square) as [u|p]; cbn [bind rr]; auto.
    eapply rr_bind; [apply build_first_rr|]. intros [x b] [x' b'] [e hx]. cbn [fst snd] in *. subst b'.
    eapply rr_bind.
    - apply mapM_rr with (R := fun r r' => r = r' /\ okr r). intros j _.
      destruct (mget M j b) as [d|p] eqn:e; cbn [bind rr]; auto. split; [auto|]. split; cbn; eauto.
    - intros rs rs' [h hl]. rewrite seq_length in hl.
      assert (G : rs = rs' /\ Forall okr rs).
      { clear -h. induction h as [|p p' rs rs' (h1 & h2) hrs (IH1 & IH2)]; auto. split; [congruence|auto]. }
      destruct G as [<- G]. apply rr_forM with (R := same_b).
      + intros l s s' _ hs. apply build_step_rr. exact hs.
      + constructor; cbn; auto. split; auto.
  Qed.

  Theorem pam_build_rr k :
    rr (fun r r' => snd r = snd r' /\ snd (fst r) = snd (fst r') /\ bd (n * m) (fst (fst r)) (fst (fst r')))
       (pam_build_c A M k) (pam_build (Lt := Z) M k).
  Proof.
    unfold pam_build_c, pam_build. destruct (check_input M k) as [u|p]; cbn [bind rr]; auto.
    eapply rr_bind; [apply pam_build_initialize_rr|]. intros s s' [e1 e2 hok hl]. cbn [rr fst snd].
    split; [auto|]. split; [congruence|auto].
  Qed.

  Theorem pam_rr k maxiter : rr same_result (pam_c A M k maxiter) (pam (Lt := Z) M k maxiter).
  Proof.
    unfold pam_c, pam. destruct (check_input M k) as [u|p]; cbn [bind rr]; auto.
    eapply rr_bind; [apply pam_build_initialize_rr|]. intros s s' [e1 e2 hok hl]. rewrite <- e1, <- e2.
    apply pam_optimize_rr; auto.
  Qed.

  Lemma assign_nearest_rr med :
    rr (fun p p' => snd p = snd p' /\ length (snd p) = mlen M /\ bd (n * m) (fst p) (fst p'))
       (assign_nearest_c A M med) (assign_nearest (Lt := Z) M med).
  Proof.
    unfold assign_nearest_c, assign_nearest. destruct (check_input M (length med)) as [u|p]; cbn [bind rr]; auto.
    destruct (idx med 0) as [fc|p]; cbn [bind rr]; auto. pose proof m0.
    eapply rr_bind; [apply mapM_rr; intros; apply an_obj_rr|].
    intros rs rs' [h hl]. rewrite seq_length in hl.
    assert (G : map fst rs = map fst rs' /\ Forall2 (bd m) (map snd rs) (map snd rs')).
    { clear -h. induction h as [|p p' rs rs' (h1 & h2) hrs (IH1 & IH2)]; cbn [map]; auto. split; [congruence|auto]. }
    destruct G as [g1 g2].
    assert (hn : Z.of_nat (length (map snd rs)) * m <= B) by (rewrite map_length, hl; apply nm; lia).
    step (reduce_bd g2 hn). cbn [rr fst snd]. split; [exact g1|]. split; [rewrite map_length; exact hl|].
    rewrite map_length, hl in hz.
    destruct z as [x|], (reduce ladd (map snd rs')) as [x'|]; try contradiction; [exact hz|]. apply bd_zero. nia.
  Qed.

  Theorem alternating_rr med maxiter :
    rr same_result (alternating_c A M med maxiter) (alternating (Lt := Z) M med maxiter).
  Proof.
    unfold alternating_c, alternating.
    eapply rr_bind; [apply assign_nearest_rr|]. intros [l a] [l' a'] (e & ha & hl). cbn [fst snd] in *. subst a'.
    eapply rr_bind.
    - apply rr_whileM with (R := fun (s : ast Lt) (s' : ast Z) => al_med s = al_med s' /\ al_assi s = al_assi s' /\
        al_iter s = al_iter s' /\ length (al_assi s) = mlen M /\ bd (n * m) (al_loss s) (al_loss s')).
      + intros s s' (e1 & e2 & e3 & hs & hls). unfold alt_iteration_c, alt_iteration. rewrite <- e1, <- e2, <- e3.
        eapply rr_bind with (R := fun p p' => p = p').
        * unfold alt_medoids_c, alt_medoids. apply rr_foldM with (I := fun _ (p p' : list nat * bool) => p = p'); auto.
          intros t i [md c] p' _ <-. eapply rr_bind; [apply choose_rr; lia|].
          intros [[md1 c1] x] [[md1' c1'] x'] [f _]. cbn [fst] in f. injection f as <- <-. cbn [rr]. auto.
        * intros [md c] p' <-. destruct (negb c); [cbn [rr rc]; repeat split; cbn; auto; apply hls|].
          eapply rr_bind; [apply assign_nearest_rr|]. intros [l1 a1] [l1' a1'] (f & ha1 & hl1). cbn [fst snd] in *.
          subst a1'. cbn [rr rc]. repeat split; cbn; auto; apply hl1.
      + cbn. auto.
    - intros s s' (e1 & e2 & e3 & hs & hls). cbn [rr]. repeat split; cbn; auto; apply hls.
  Qed.

  Lemma treduce_bd t (l : list Lt) (l' : list Z) : Forall2 (bd m) l l' -> Z.of_nat (length l) * m <= B ->
    rr (fun o o' => match o, o' with Some a, Some x => bd (Z.of_nat (length l) * m) a x | None, None => True | _, _ => False end)
       (treduce_c A t l) (Ok (treduce ladd t l')).
  Proof.
    revert l l'. pose proof m0. induction t as [|p t1 IH1 t2 IH2]; intros l l' h hb; cbn [treduce treduce_c]; [apply reduce_bd; auto|].
    assert (hlen : length l = (length (firstn p l) + length (skipn p l))%nat) by (rewrite <- app_length, firstn_skipn; auto).
    rewrite hlen, Nat2Z.inj_add, Z.mul_add_distr_r in *.
    assert (b1 : Z.of_nat (length (firstn p l)) * m <= B) by nia.
    assert (b2 : Z.of_nat (length (skipn p l)) * m <= B) by nia.
    step (IH1 _ _ (Forall2_firstn p h) b1). step (IH2 _ _ (Forall2_skipn p h) b2).
    destruct z as [a|], (treduce ladd t1 (firstn p l')) as [a'|]; try contradiction;
    destruct z0 as [c|], (treduce ladd t2 (skipn p l')) as [c'|]; try contradiction; cbn [rr].
    - step (bd_add hz hz0 hb). exact hz1.
    - eapply bd_mono; [exact hz|nia].
    - eapply bd_mono; [exact hz0|nia].
    - exact Logic.I.
  Qed.

  Lemma par_initial_rr t med :
    rr same_ld (par_initial_assignment_c A M t med) (par_initial_assignment (Lt := Z) M t med).
  Proof.
    unfold par_initial_assignment_c, par_initial_assignment. destruct (check_input M (length med)) as [u|p]; cbn [bind rr]; auto.
    destruct (idx med 0) as [fc|p]; cbn [bind rr]; auto.
    eapply rr_bind; [apply mapM_rr; intros; apply ia_obj_rr|].
    intros rs rs' [h hl]. rewrite seq_length in hl. destruct (same_recs h) as (h1 & h2 & h3).
    assert (hn : Z.of_nat (length (map snd rs)) * m <= B) by (rewrite map_length, hl; apply nm; lia).
    step (treduce_bd t h3 hn). destruct z as [x|], (treduce ladd t (map snd rs')) as [x'|]; try contradiction; [|reflexivity].
    cbn [unwrap bind]. rename hz into hx. rewrite map_length, hl in hx. cbn [rr]. split; [exact h1|]. split; [|exact hx].
    split; [cbn [snd]; rewrite map_length; auto|exact h2].
  Qed.

  Lemma par_do_swap_rr t med data b j : okdata data ->
    rr same_mdl (par_do_swap_c A M t med data b j) (par_do_swap (Lt := Z) M t med data b j).
  Proof.
    intros hd. unfold par_do_swap_c, par_do_swap.
    destruct (assertb (b <? length med)%nat P_assert) as [u|p]; cbn [bind rr]; auto.
    destruct (assertb (j <? mlen M)%nat P_assert) as [u'|p]; cbn [bind rr]; auto.
    destruct (upd med b j) as [med'|p]; cbn [bind rr]; auto.
    eapply rr_bind; [apply mapM_rr; intros p hp; apply par_do_swap_obj_rr; eapply okdata_enum; eauto|].
    intros rs rs' [h hl]. rewrite enum_len, (proj1 hd) in hl. destruct (same_recs h) as (h1 & h2 & h3).
    assert (hn : Z.of_nat (length (map snd rs)) * m <= B) by (rewrite map_length, hl; apply nm; lia).
    step (treduce_bd t h3 hn). destruct z as [x|], (treduce ladd t (map snd rs')) as [x'|]; try contradiction; [|reflexivity].
    cbn [unwrap bind]. rename hz into hx. rewrite map_length, hl in hx. cbn [rr]. split; [cbn [fst]; congruence|].
    split; [|exact hx]. split; [cbn [fst snd]; rewrite map_length; auto|exact h2].
  Qed.

  Lemma combine_bd b c l l' r r' : Forall2 (bd b) l l' -> Forall2 (bd c) r r' -> b + c <= B ->
    rr (Forall2 (bd (b + c))) (mapM (fun '(x, y) => cadd A x y) (combine l r)) (Ok (map (fun '(x, y) => ladd x y) (combine l' r'))).
  Proof.
    intros h h2 hb. revert r r' h2. induction h as [|x x' l l' hx hl IH]; intros r r' h2; cbn [combine map mapM]; [constructor|].
    destruct h2 as [|y y' r r' hy hr]; cbn [combine map mapM]; [constructor|].
    step (bd_add hx hy hb). step (IH _ _ hr). cbn [rr]. constructor; auto.
  Qed.

  (** what a task does depends only on its objects *)
  Lemma par_task_rr k data j st x : okdata data ->
    let c := Z.of_nat (length (chunk st (enum data) x)) in c * m <= B ->
    rr (fun s s' => Forall2 (bd (c * m)) (fst s) (fst s') /\ bd (c * m) (snd s) (snd s'))
       (par_task_c A M k data j st x) (par_task (Lt := Z) M k data j st x).
  Proof.
    intros hd c hc. unfold par_task_c, par_task.
    assert (e : skipn (x * st) (firstn (Nat.min (x * st + st) (mlen M)) (enum data)) = chunk st (enum data) x).
    { unfold chunk. rewrite enum_len, (proj1 hd). auto. }
    rewrite e. apply (@fbs_fold_rr j (chunk st (enum data) x) 0 0); try lia; try (fold c; lia).
    - intros p hp. apply In_chunk in hp. eapply okdata_enum; eauto.
    - apply repeat_bd. lia.
    - apply bd_zero. lia.
  Qed.

  Lemma par_find_best_swap_rr s rl rl' data j : sched_ok s -> okdata data -> Forall2 (bd (n * m)) rl rl' ->
    rr same_change (par_find_best_swap_c A M s rl data j) (par_find_best_swap (Lt := Z) M s rl' data j).
  Proof.
    intros [h1 h2] hd hrl. pose proof m0. unfold par_find_best_swap_c, par_find_best_swap.
    set (st := ((mlen M + s_parts s - 1) / s_parts s)%nat).
    assert (htot : clen data st (s_order s) = mlen M).
    { unfold clen, st. rewrite <- (proj1 hd), <- (enum_len data) at 1. rewrite (Permutation_length (chunks_cover (enum data) h1 h2)).
      rewrite enum_len. apply hd. }
    rewrite <- (Forall2_len hrl).
    assert (F : forall l done, done ++ l = s_order s ->
      forall (pl : list Lt) (ac : Lt) pl' ac', Forall2 (bd (n * m + Z.of_nat (clen data st done) * m)) pl pl' ->
      bd (Z.of_nat (clen data st done) * m) ac ac' ->
      rr (fun p p' => Forall2 (bd (n * m + n * m)) (fst p) (fst p') /\ bd (n * m) (snd p) (snd p'))
        (foldM (fun '(ploss, acc) x =>
               '(loss, lagg) <- par_task_c A M (length rl) data j st x ;;
               ploss' <- mapM (fun '(a, b) => cadd A a b) (combine ploss loss) ;;
               acc' <- cadd A acc lagg ;;
               Ok (ploss', acc')) l (pl, ac))
        (foldM (fun '(ploss, acc) x =>
               '(loss, lagg) <- par_task M (length rl) data j st x ;;
               Ok (map (fun '(a, b) => ladd a b) (combine ploss loss), ladd acc lagg)) l (pl', ac'))).
    { induction l as [|x l IH]; intros done hdone pl ac pl' ac' hpl hac; cbn [foldM].
      - rewrite app_nil_r in hdone. subst done. rewrite htot in *. cbn [rr fst snd]. auto.
      - assert (hc : (clen data st done + length (chunk st (enum data) x) <= mlen M)%nat).
        { rewrite <- htot, <- hdone. unfold clen. rewrite flat_map_app, app_length. cbn [flat_map]. rewrite app_length. lia. }
        assert (hc' : clen data st (done ++ [x]) = (clen data st done + length (chunk st (enum data) x))%nat).
        { unfold clen. rewrite flat_map_app, app_length. cbn [flat_map]. rewrite app_nil_r. auto. }
        eapply rr_bind with (R := fun p p' => Forall2 (bd (n * m + Z.of_nat (clen data st (done ++ [x])) * m)) (fst p) (fst p') /\
           bd (Z.of_nat (clen data st (done ++ [x])) * m) (snd p) (snd p')).
        + eapply rr_bind; [apply par_task_rr; [exact hd|apply nm; lia]|].
          intros [lo la] [lo' la'] [g1 g2]. cbn [fst snd] in *.
          set (c1 := Z.of_nat (clen data st done)) in *. set (c2 := Z.of_nat (length (chunk st (enum data) x))) in *.
          assert (b1 : n * m + c1 * m + c2 * m <= B) by nia. assert (b2 : c1 * m + c2 * m <= B) by nia.
          step (combine_bd hpl g1 b1). step (bd_add hac g2 b2). cbn [rr fst snd].
          rewrite hc', Nat2Z.inj_add, Z.mul_add_distr_r, Z.add_assoc. split; [exact hz|exact hz0].
        + intros [pl1 ac1] [pl1' ac1'] [g1 g2]. cbn [fst snd] in *. apply (IH (done ++ [x])); auto.
          rewrite <- app_assoc. exact hdone. }
    eapply rr_bind; [apply (F (s_order s) []); auto|].
    - unfold clen. cbn [flat_map length]. rewrite Z.mul_0_l, Z.add_0_r. exact hrl.
    - apply bd_zero. unfold clen. cbn. lia.
    - intros [pl ac] [pl' ac'] [g1 g2]. cbn [fst snd] in *.
      eapply rr_bind; [apply find_min_rr; exact g1|]. intros [b x] [b' x'] [e hx]. cbn [fst snd] in *. subst b'.
      assert (hs : n * m + n * m + n * m <= B) by nia. step (bd_add hx g2 hs).
      cbn [rr]. split; [auto|]. cbn [fst]. eapply bd_mono; [exact hz|nia].
  Qed.

  Lemma par_cand_rr orc s s' j : oracle_ok orc -> same_fp s s' ->
    rr (rc same_fp) (par_cand_c A M orc s j) (par_cand M orc s' j).
  Proof.
    intros ho hs. pose proof hs as [e1 e2 e3 e4 e5 hok hrl hloss]. unfold par_cand_c, par_cand. rewrite <- e1, <- e2, <- e3, <- e4, <- e5.
    destruct (j =? fp_last s)%nat; [exact hs|].
    destruct (idx (fp_data s) j) as [rj|p]; cbn [bind rr]; auto.
    destruct (idx (fp_med s) (as_usize (di (near rj)))) as [mj|p]; cbn [bind rr]; auto.
    destruct (j =? mj)%nat; [exact hs|].
    eapply rr_bind; [apply par_find_best_swap_rr; auto|]. intros [x b] [x' b'] [eb hx]. cbn [fst snd] in *. subst b'.
    assert (h0 : bd 0 lzero 0) by (apply bd_zero; lia). rewrite (bd_le h0 hx). change 0 with (lzero : Z).
    destruct (lleb lzero x'); [exact hs|].
    eapply rr_bind; [apply par_do_swap_rr; auto|]. intros [[md dt] l] [[md' dt'] l'] (e & hd & hl). cbn [fst snd] in *.
    injection e as <- <-.
    eapply rr_bind; [apply update_removal_loss_rr; [exact hd|eapply Forall2_len; eauto]|].
    intros r r' hr. cbn [rr rc]. constructor; cbn; auto.
  Qed.

  Theorem par_fasterpam_rr orc order med maxiter : oracle_ok orc ->
    rr same_result (par_fasterpam_c A M orc order med maxiter) (par_fasterpam (Lt := Z) M orc order med maxiter).
  Proof.
    intros ho. unfold par_fasterpam_c, par_fasterpam. destruct (length med =? 1)%nat; [apply single_rr|].
    eapply rr_bind; [apply par_initial_rr|]. intros [l d] [l' d'] (e & hd & hl). cbn [fst snd] in *. subst d'.
    eapply rr_bind; [apply update_removal_loss_rr; [exact hd|rewrite !repeat_length; auto]|]. intros rl rl' hrl.
    eapply rr_bind; [apply rr_whileM with (R := same_fp); [|constructor; cbn; auto]|].
    - intros s s' hs. pose proof hs as [e1 e2 e3 e4 e5 hok hr hloss]. unfold par_iteration_c, par_iteration.
      eapply rr_bind.
      + apply rr_forM with (R := same_fp).
        * intros j t t' _ ht. apply par_cand_rr; auto.
        * constructor; cbn; auto.
      + intros t t' ht. pose proof ht as [f1 f2 f3 f4 f5 gok grl gloss].
        rewrite <- f4, <- e4, (bd_le hloss gloss).
        destruct (_ || _); cbn [rr rc]; exact ht.
    - intros t t' [f1 f2 f3 f4 f5 gok grl gloss]. cbn [rr]. repeat split; cbn; try apply gloss; congruence.
  Qed.
End BoundedChk.
