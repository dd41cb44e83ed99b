(** LtFacts.v -- index arithmetic of LowerTriangle (arrayadapter.rs:46-71) *)
From Coq Require Import ZArith Lia.
From Verif Require Import Base Num M_Mat Hoare Spec Laws.
Set Implicit Arguments.

(** number of cells before row [h] *)
Definition tri (h : nat) : nat := h * (h - 1) / 2.

Lemma tri_S h : tri (S h) = tri h + h.
Proof.
  unfold tri. destruct h as [|h]; [reflexivity|].
  replace (S (S h) * (S (S h) - 1)) with (S h * (S h - 1) + S h * 2) by nia.
  rewrite Nat.div_add by lia. lia.
Qed.

Lemma tri_mono a b : a <= b -> tri a <= tri b.
Proof. induction 1 as [|b h IH]; [lia|]. rewrite tri_S. lia. Qed.

Lemma tri_bound hi lo n : lo < hi -> hi < n -> tri hi + lo < tri n.
Proof. intros h1 h2. pose proof (tri_mono (a := S hi) (b := n) h2) as h. rewrite tri_S in h. lia. Qed.

Lemma tri_inj hi lo hi' lo' : lo < hi -> lo' < hi' -> tri hi + lo = tri hi' + lo' -> hi = hi' /\ lo = lo'.
Proof.
  intros h1 h2 e. destruct (lt_eq_lt_dec hi hi') as [[h|h]|h].
  - pose proof (tri_bound h1 h). lia.
  - subst. lia.
  - pose proof (tri_bound h2 h). lia.
Qed.

Lemma tri_surj n i : i < tri n -> exists hi lo, lo < hi /\ hi < n /\ i = tri hi + lo.
Proof.
  induction n as [|n IH]; intros h; [cbn in h; lia|]. rewrite tri_S in h.
  destruct (Nat.lt_ge_cases i (tri n)) as [h1|h1].
  - destruct (IH h1) as (hi & lo & q1 & q2 & q3). exists hi, lo. lia.
  - exists n, (i - tri n). lia.
Qed.

Lemma of_nat_tri h : N.of_nat (tri h) = (N.of_nat h * (N.of_nat h - 1) / 2)%N.
Proof.
  unfold tri. change 2%N with (N.of_nat 2). change 1%N with (N.of_nat 1).
  rewrite <- Nat2N.inj_sub, <- Nat2N.inj_mul.
  apply N2Nat.inj. rewrite Nat2N.id, N2Nat.inj_div, !Nat2N.id. auto.
Qed.

Lemma tri_offset_ok checked h : 1 <= h -> (N.of_nat h <= 4294967296)%N ->
  tri_offset checked (N.of_nat h) = Ok (N.of_nat (tri h)).
Proof.
  intros h1 h2. unfold tri_offset, usize_sub. replace (1 <=? N.of_nat h)%N with true by (symmetry; apply N.leb_le; lia).
  cbn [bind]. unfold usize_mul, usize_bound.
  replace (N.of_nat h * (N.of_nat h - 1) <? 18446744073709551616)%N with true by (symmetry; apply N.ltb_lt; nia).
  cbn [bind]. rewrite N.shiftr_div_pow2. change (2 ^ 1)%N with 2%N. rewrite of_nat_tri. auto.
Qed.

Section Lt.
  Context {Nt : Type} `{HN : NumN Nt}.
  Variable checked : bool.
  Variable t : LowerTriangle Nt.

  Lemma lt_cell_ok hi lo : lo < hi -> (N.of_nat hi <= 4294967296)%N ->
    lt_cell checked t hi lo = idx (lt_data t) (tri hi + lo).
  Proof.
    intros h1 h2. unfold lt_cell. rewrite tri_offset_ok by (auto; lia). cbn [bind].
    unfold usize_add, usize_bound. rewrite <- Nat2N.inj_add.
    assert (hb : (N.of_nat (tri hi + lo) < 18446744073709551616)%N).
    { rewrite Nat2N.inj_add, of_nat_tri. 
      pose proof (N.mul_div_le (N.of_nat hi * (N.of_nat hi - 1)) 2 ltac:(lia)). nia. }
    apply N.ltb_lt in hb. rewrite hb. cbn [bind]. rewrite Nat2N.id.
    destruct (N.of_nat (tri hi + lo) <? N.of_nat (length (lt_data t)))%N eqn:e; [auto|].
    apply N.ltb_ge in e. unfold idx. assert (h : nth_error (lt_data t) (tri hi + lo) = None) by (apply nth_error_None; lia).
    rewrite h. auto.
  Qed.

  (** the entries *)
  Definition lt_entry (x y : nat) : Nt :=
    match x ?= y with
    | Lt => nth (tri y + x) (lt_data t) nzero
    | Gt => nth (tri x + y) (lt_data t) nzero
    | Eq => nzero
    end.

  Lemma lt_matrix n : lt_n t = n -> 1 <= n -> (N.of_nat n <= 4294967296)%N -> length (lt_data t) = tri n ->
    is_matrix (mat_of_lt checked t) n lt_entry.
  Proof.
    intros e hn hb hl. split; [auto|]. split.
    - cbn [mat_of_lt msquare]. unfold lt_is_square. rewrite e, tri_offset_ok by auto. cbn [bind].
      rewrite hl, N.eqb_refl. auto.
    - intros x y hx hy. cbn [mat_of_lt mget]. unfold lt_get, lt_entry. destruct (x ?= y) eqn:c.
      + auto.
      + apply Nat.compare_lt_iff in c. rewrite lt_cell_ok by (auto; lia). apply idx_nth.
        rewrite hl. apply tri_bound; auto.
      + apply Nat.compare_gt_iff in c. rewrite lt_cell_ok by (auto; lia). apply idx_nth.
        rewrite hl. apply tri_bound; auto.
  Qed.

  Lemma lt_square_iff n : lt_n t = n -> 1 <= n -> (N.of_nat n <= 4294967296)%N ->
    msquare (mat_of_lt checked t) = Ok (length (lt_data t) =? tri n).
  Proof.
    intros e hn hb. cbn [mat_of_lt msquare]. unfold lt_is_square. rewrite e, tri_offset_ok by auto. cbn [bind]. f_equal.
    destruct (length (lt_data t) =? tri n) eqn:q.
    - apply Nat.eqb_eq in q. rewrite q. apply N.eqb_refl.
    - apply Nat.eqb_neq in q. apply N.eqb_neq. lia.
  Qed.
End Lt.
