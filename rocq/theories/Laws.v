(** Laws.v -- what is assumed of the number types by the theorems about values.

    The model itself needs no law.  [OrdLaws]: the comparisons of the dissimilarity type are those
    of rational numbers on the values [okN] (for floats: the finite ones).  [AddLaws]: addition is
    exact.  [LossLaws], [DivLaws]: the arithmetic of the loss type is exact.  Integers and
    rationals are instances of the exact laws, binary64 of [OrdLaws] only (FloatFacts.v). *)
From Coq Require Import ZArith QArith Qreduction Lqa Lia.
From Verif Require Import Base Num M_Mat Inst Spec.
Open Scope Q_scope.

Class OrdLaws (Nt : Type) `{NumN Nt} := {
  okN : Nt -> Prop;
  vN : Nt -> Q;
  okN_zero : okN nzero;
  vN_zero : vN nzero == 0;
  nltb_spec : forall a b, okN a -> okN b -> (nltb a b = true <-> vN a < vN b);
  neqb_spec : forall a b, okN a -> okN b -> (neqb a b = true <-> vN a == vN b);
  nis_zero_spec : forall a, okN a -> (nis_zero a = true <-> vN a == 0)
}.

Class AddLaws (Nt : Type) `{OrdLaws Nt} := {
  okN_add : forall a b, okN a -> okN b -> okN (nadd a b);
  vN_add : forall a b, okN a -> okN b -> vN (nadd a b) == vN a + vN b
}.

Class LossLaws (Nt Lt : Type) `{OrdLaws Nt} `{NumL Lt} `{FromN Nt Lt} := {
  vL : Lt -> Q;
  vL_zero : vL lzero == 0;
  vL_add : forall a b, vL (ladd a b) == vL a + vL b;
  vL_sub : forall a b, vL (lsub a b) == vL a - vL b;
  vL_neg : forall a, vL (lneg a) == - vL a;
  lltb_spec : forall a b, lltb a b = true <-> vL a < vL b;
  lleb_spec : forall a b, lleb a b = true <-> vL a <= vL b;
  vL_from : forall x, okN x -> vL (lfrom x) == vN x
}.

Class DivLaws (Nt Lt : Type) `{LossLaws Nt Lt} := {
  vL_one : vL lone == 1;
  vL_div : forall a b, ~ vL b == 0 -> vL (ldiv a b) == vL a / vL b;
  vL_u32 : forall n, vL (lfrom_u32 n) == inject_Z (Z.of_N n)
}.

(** ** Integers and rationals *)
Lemma Qltb_spec a b : Qltb a b = true <-> a < b.
Proof.
  unfold Qltb. rewrite Bool.negb_true_iff. split; intros h.
  - apply Qnot_le_lt. intros c. apply Qle_bool_iff in c. congruence.
  - destruct (Qle_bool b a) eqn:e; auto. apply Qle_bool_iff in e. lra.
Qed.

Global Instance OrdLaws_Z : OrdLaws Z.
Proof.
  refine {| okN := fun _ => True; vN := inject_Z |}; simpl.
  - exact I.
  - reflexivity.
  - intros a b _ _. rewrite Z.ltb_lt, <- Zlt_Qlt. tauto.
  - intros a b _ _. rewrite Z.eqb_eq. split; [intros ->; reflexivity | apply inject_Z_injective].
  - intros a _. change ((0 =? a)%Z = true <-> inject_Z a == 0). rewrite Z.eqb_eq. split; [intros <-; reflexivity | intros h].
    symmetry. apply inject_Z_injective. exact h.
Defined.

Global Instance OrdLaws_Q : OrdLaws Q.
Proof.
  refine {| okN := fun _ => True; vN := fun x => x |}; simpl.
  - exact I.
  - reflexivity.
  - intros a b _ _. apply Qltb_spec.
  - intros a b _ _. apply Qeq_bool_iff.
  - intros a _. rewrite Qeq_bool_iff. split; intros h; rewrite h; reflexivity.
Defined.

Global Instance AddLaws_Z : AddLaws Z.
Proof. split; simpl; auto. intros a b _ _. rewrite inject_Z_plus. reflexivity. Defined.

Global Instance AddLaws_Q : AddLaws Q.
Proof. split; [exact (fun _ _ _ _ => I) | intros a b _ _; apply Qred_correct]. Defined.

Global Instance LossLaws_Z_Z : LossLaws Z Z.
Proof.
  refine {| vL := inject_Z |}; simpl.
  - reflexivity.
  - intros. rewrite inject_Z_plus. reflexivity.
  - intros. unfold Z.sub. rewrite inject_Z_plus, inject_Z_opp. reflexivity.
  - intros. rewrite inject_Z_opp. reflexivity.
  - intros. rewrite Z.ltb_lt, <- Zlt_Qlt. tauto.
  - intros. rewrite Z.leb_le, <- Zle_Qle. tauto.
  - reflexivity.
Defined.

Global Instance LossLaws_Z_Q : LossLaws Z Q.
Proof.
  refine {| vL := fun x => x |}; intros; try reflexivity; try apply Qred_correct.
  - apply Qltb_spec.
  - apply Qle_bool_iff.
Defined.

Global Instance LossLaws_Q_Q : LossLaws Q Q.
Proof.
  refine {| vL := fun x => x |}; intros; try reflexivity; try apply Qred_correct.
  - apply Qltb_spec.
  - apply Qle_bool_iff.
Defined.

Global Instance DivLaws_Z_Q : DivLaws Z Q.
Proof. split; intros; try reflexivity. apply Qred_correct. Defined.

Global Instance DivLaws_Q_Q : DivLaws Q Q.
Proof. split; intros; try reflexivity. apply Qred_correct. Defined.

(** ** Matrices *)

(** [M] is a square matrix of size [n] with the entries [D]. *)
Definition is_matrix {Nt} (M : Mat Nt) (n : nat) (D : nat -> nat -> Nt) : Prop :=
  mlen M = n /\ msquare M = Ok true /\
  forall x y, (x < n)%nat -> (y < n)%nat -> mget M x y = Ok (D x y).

(** its entries as rational numbers *)
Definition vals {Nt} `{OrdLaws Nt} (D : nat -> nat -> Nt) : diss := fun x y => vN (D x y).

(** [M] is a dissimilarity matrix: valid, non-negative entries, zero diagonal.  The diagonal entries
    are required to be [nzero] itself, which excludes e.g. the float [-0.0] there. *)
Definition diss_matrix {Nt} `{OrdLaws Nt} (M : Mat Nt) (n : nat) (D : nat -> nat -> Nt) : Prop :=
  is_matrix M n D /\
  (forall x, (x < n)%nat -> D x x = nzero) /\
  (forall x y, (x < n)%nat -> (y < n)%nat -> okN (D x y) /\ 0 <= vals D x y).

(** [M] has valid, non-negative entries (the diagonal is arbitrary). *)
Definition nonneg_matrix {Nt} `{OrdLaws Nt} (M : Mat Nt) (n : nat) (D : nat -> nat -> Nt) : Prop :=
  is_matrix M n D /\
  (forall x y, (x < n)%nat -> (y < n)%nat -> okN (D x y) /\ 0 <= vals D x y).

Lemma diss_nonneg {Nt} `{OrdLaws Nt} (M : Mat Nt) n D : diss_matrix M n D -> nonneg_matrix M n D.
Proof. intros (h1 & _ & h3). split; assumption. Qed.
