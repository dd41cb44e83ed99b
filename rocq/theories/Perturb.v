(** Perturb.v -- total deviations for two dissimilarities which differ by at most [d]. *)
From Coq Require Import List Arith ZArith QArith Lqa Lia.
From Verif Require Import Base Spec SpecFacts Approx FloatQuality.
Import ListNotations.
Set Implicit Arguments.
Open Scope nat_scope.

(** the entries of two matrices differ by at most [d] *)
Definition entries_close (n : nat) (v w : diss) (d : Q) : Prop :=
  forall x y, x < n -> y < n -> (v x y <= w x y + d)%Q /\ (w x y <= v x y + d)%Q.

Lemma entries_close_sym n v w d : entries_close n v w d -> entries_close n w v d.
Proof. intros h x y hx hy. destruct (h x y hx hy). auto. Qed.

Lemma tdev_close n v w d med : entries_close n v w d -> med <> [] -> (forall m, In m med -> m < n) ->
  (tdev v n med <= tdev w n med + inject_Z (Z.of_nat n) * d)%Q.
Proof.
  intros hc hne hin.
  assert (h : forall k, k <= n -> (sumQ (fun o => mindist v o med) (seq 0 k) <=
    sumQ (fun o => mindist w o med) (seq 0 k) + inject_Z (Z.of_nat k) * d)%Q).
  { induction k as [|k IH]; intros hk; [cbn [seq sumQ fold_right Z.of_nat]; change (inject_Z 0) with 0%Q; lra|]. rewrite !sumQ_seq_S. specialize (IH ltac:(lia)).
    rewrite Nat2Z.inj_succ. unfold Z.succ. rewrite inject_Z_plus. change (inject_Z 1) with 1%Q.
    destruct (mindist_in w k hne) as (m & hm & e). pose proof (mindist_le v k _ _ hm) as h.
    destruct (hc k m ltac:(lia) (hin m hm)) as [h1 _]. rewrite e. lra. }
  apply h. lia.
Qed.

Lemma swap_inr n med b j : (forall m, In m med -> m < n) -> j < n -> (forall m, In m (swap med b j) -> m < n).
Proof.
  intros hin hj m hm. unfold swap in hm. apply in_app_or in hm as [hm|[<-|hm]]; auto; apply hin.
  - rewrite <- (firstn_skipn b med). apply in_or_app. auto.
  - rewrite <- (firstn_skipn (S b) med). apply in_or_app. auto.
Qed.

(** medoids which are nearly optimal for one dissimilarity are nearly optimal for the other *)
Lemma nearly_optimal_close n v w d e med : entries_close n v w d -> med <> [] -> (forall m, In m med -> m < n) ->
  nearly_optimal v n med e -> nearly_optimal w n med (e + 2 * (inject_Z (Z.of_nat n) * d)).
Proof.
  intros hc hne hin ho b j hb hj. pose proof (ho b j hb hj) as h.
  pose proof (tdev_close (entries_close_sym hc) hne hin) as h1.
  assert (hne' : swap med b j <> []) by (unfold swap; intros h'; apply app_eq_nil in h' as [_ h']; discriminate).
  pose proof (tdev_close hc hne' (@swap_inr n med b j hin hj)) as h2. lra.
Qed.

Theorem five_close n v w d e med opt : metric n w -> entries_close n v w d -> (forall m, In m med -> m < n) ->
  (forall m, In m opt -> m < n) -> 1 <= length opt <= length med -> nearly_optimal v n med e ->
  (tdev v n med <= 5 * tdev v n opt + (6 + 2 * inject_Z (Z.of_nat (length med))) * (inject_Z (Z.of_nat n) * d) +
     inject_Z (Z.of_nat (length med)) * e)%Q.
Proof.
  intros hm hc hin hio hl ho.
  assert (hne : med <> []) by (intros ->; cbn in hl; lia). assert (hne' : opt <> []) by (intros ->; cbn in hl; lia).
  pose proof (@five_times_slack w n med opt _ hm hin hio hl (nearly_optimal_close hc hne hin ho)) as h.
  pose proof (tdev_close hc hne hin) as h1. pose proof (tdev_close (entries_close_sym hc) hne' hio) as h2.
  set (K := inject_Z (Z.of_nat (length med))) in *. set (N := (inject_Z (Z.of_nat n) * d)%Q) in *. clearbody K N.
  assert (hk : (K * (e + 2 * N) == K * e + 2 * K * N)%Q) by ring. rewrite hk in h.
  assert (hk2 : ((6 + 2 * K) * N == 6 * N + 2 * K * N)%Q) by ring. rewrite hk2. lra.
Qed.
