(** P_TermDyn.v -- property C69: dynmsc stops by itself in binary64. *)
From Coq Require Import ZArith QArith Lqa Lia.
From Coq.Floats Require Import SpecFloat.
From Verif Require Import Base Num Inst Ex M_Mat M_Util M_Fasterpam M_Silhouette M_Msc M_Dynmsc Hoare Spec SpecFacts Laws
  PamShape MscShape DynShape DynFacts FloatFacts Term TermMsc TermFloat TermDyn Float32
  P_Fasterpam P_Float P_Term P_Float32.
Open Scope nat_scope.

(** from the limit [bound] on, the limit makes no difference; at most [bound] iterations are done for
    every number of medoids *)
Definition dyn_stops_by_itself (k : nat) (run : nat -> res (dyn_result f64)) (bound : nat) : Prop :=
  exists r, r_iter (d_res r) <= Nat.max 1 (k - 1) * bound /\ forall maxiter, bound <= maxiter -> run maxiter = Ok r.

(** n^k iterations for at most four medoids, n^(2n) for any number *)
Definition limit (n k : nat) : nat := if k <=? 4 then n ^ k else n ^ (2 * n).

Section Any.
  Context {Nt : Type} `{HRO : RatioOrder Nt f64}.
  Variable M : Mat Nt.
  Variable n : nat.
  Variable D : nat -> nat -> Nt.
  Hypothesis HD : diss_matrix M n D.
  Hypothesis Hsame : same_losses (Lt := f64) n D.
  Hypothesis Hratios : ratios_ok (Lt := f64) n D.

  Lemma dynmsc_by_itself med mink : sizes n (length med) -> (forall m, In m med -> m < n) ->
    dyn_stops_by_itself (length med) (dynmsc (Lt := f64) M med mink) (limit n (length med)).
  Proof.
    intros hs hin. assert (hn : 1 <= n) by (unfold sizes in hs; lia).
    set (B := limit n (length med)).
    assert (hst : forall maxiter, B <= maxiter -> dynmsc (Lt := f64) M med mink maxiter = dynmsc M med mink B).
    { intros maxiter h. apply (dynmsc_stops HD Hsame Hratios hn hs hin); [exact h|apply le_n]. }
    assert (hb : 1 <= B).
    { unfold B, limit. destruct (_ <=? _); apply Nat.neq_0_lt_0, Nat.pow_nonzero; lia. }
    destruct (Nat.eq_dec (length med) 1) as [h1|h1].
    - destruct (dynmsc_shape (Lt := f64) (proj1 HD) B mink hs hin) as (r & e & _).
      exists r. split; [|intros maxiter h; rewrite hst; auto].
      unfold dynmsc in e. rewrite h1 in e. cbn [Nat.eqb] in e.
      pose proof (single_stops M n D med B (proj1 HD) h1 hin hb) as h. apply oks_inv in h as (p & ep & hp).
      rewrite ep in e. cbn [bind] in e. injection e as <-. cbn [d_res]. rewrite h1. simpl. lia.
    - assert (hk : 2 <= length med) by (unfold sizes in hs; lia).
      pose proof (dynmsc_facts (Lt := f64) (proj1 HD) B mink hs hin hk) as h. apply oks_inv in h as (r & e & hf).
      exists r. split; [|intros maxiter h; rewrite hst; auto].
      rewrite Nat.max_r by lia. apply (df_iter hf).
  Qed.
End Any.

Theorem C69_dynmsc (M : Mat f64) n D med mink :
  diss_matrix M n D -> no_negative_zero n D -> sizes n (length med) -> (forall m, In m med -> m < n) ->
  dyn_stops_by_itself (length med) (dynmsc (Lt := f64) M med mink) (limit n (length med)).
Proof.
  intros HD hz. apply (dynmsc_by_itself M n D HD (same_losses_f64 HD hz) (@ratios_ok_f64 n D)).
Qed.
Print Assumptions C69_dynmsc.

(** with integer dissimilarities up to 2^53, and with f32 dissimilarities *)
Theorem C69_dynmsc_integers (M : Mat Z) n D med mink :
  diss_matrix M n D -> (forall x y, x < n -> y < n -> (D x y <= 2 ^ 53)%Z) ->
  sizes n (length med) -> (forall m, In m med -> m < n) ->
  dyn_stops_by_itself (length med) (dynmsc (Lt := f64) M med mink) (limit n (length med)).
Proof.
  intros HD hb. apply (dynmsc_by_itself M n D HD (@same_losses_Z n D) (@ratios_ok_Z n D hb)).
Qed.
Print Assumptions C69_dynmsc_integers.

Theorem C69_dynmsc_f32 (M : Mat f32) n D med mink :
  diss_matrix M n D -> no_negative_zero32 n D -> sizes n (length med) -> (forall m, In m med -> m < n) ->
  dyn_stops_by_itself (length med) (dynmsc (Lt := f64) M med mink) (limit n (length med)).
Proof.
  intros HD hz. apply (dynmsc_by_itself M n D HD (same_losses_f32 HD hz) (@ratios_ok_f32 n D)).
Qed.
Print Assumptions C69_dynmsc_f32.

Lemma s54 : sizes 5 4. Proof. unfold sizes. simpl. lia. Qed.
Lemma s55 : sizes 5 5. Proof. unfold sizes. simpl. lia. Qed.
Definition C69_case := C69_dynmsc _ 5 _ [0; 1; 2; 4] 2 f1_diss f1_no_negative_zero s54 (below5 [0; 1; 2; 4] eq_refl).
Definition C69_case_five := C69_dynmsc _ 5 _ [3; 0; 1; 2; 4] 1 f1_diss f1_no_negative_zero s55 (below5 [3; 0; 1; 2; 4] eq_refl).
Definition C69_case_integers := C69_dynmsc_integers _ 5 _ [0; 1; 2] 1 m5_diss d5_small s53 (below5 [0; 1; 2] eq_refl).
Definition C69_case_f32 := C69_dynmsc_f32 _ 5 _ [0; 1; 2] 1 s_diss s_zero s53 (below5 [0; 1; 2] eq_refl).
(** the searches of these runs do take several iterations *)
Example C69_case_runs : exists r, dynmsc (Lt := f64) (mat_of_rows rows_f1) [3; 0; 1; 2; 4] 1 100 = Ok r /\ 4 <= r_iter (d_res r).
Proof. eexists. split; [vm_compute; reflexivity|]. vm_compute. lia. Qed.
