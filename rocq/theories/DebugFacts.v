(** DebugFacts.v -- the assertions of debug builds hold whenever there are enough medoids. *)
From Coq Require Import ZArith QArith Lqa Lia.
From Coq.Floats Require Import SpecFloat.
From Verif Require Import Base Num M_Mat M_Util M_Fasterpam M_Pam M_Alternating M_ParFasterpam M_Silhouette M_Msc
  M_Pammedsil M_Dynmsc M_Debug Inst Hoare Spec SpecFacts Laws PamShape FpFacts ChooseFacts PamFacts BuildFacts
  ParFacts PamMain MscShape MscFacts BuildMsc DynShape FloatFacts FloatMain.
Set Implicit Arguments.
Open Scope nat_scope.

(** [nleb] is the order of the numbers *)
Definition le_ok {Nt} `{OrdLaws Nt} (nleb : Nt -> Nt -> bool) : Prop :=
  forall a b, okN a -> okN b -> (nleb a b = true <-> (vN a <= vN b)%Q).

Lemma le_ok_Z : le_ok Z.leb.
Proof. intros a b _ _. simpl. rewrite Z.leb_le, <- Zle_Qle. tauto. Qed.

Lemma le_ok_Q : le_ok Qle_bool.
Proof. intros a b _ _. apply Qle_bool_iff. Qed.

Lemma le_ok_f64 : le_ok SFleb.
Proof.
  intros a b ha hb. unfold SFleb. rewrite SFcompare_val by auto.
  change (vN a) with (f64_val a). change (vN b) with (f64_val b).
  destruct (Qcompare_spec (f64_val a) (f64_val b)); split; intros h; try discriminate h; auto; lra.
Qed.

Section Debug.
  Context {Nt Lt : Type} `{HO : OrdLaws Nt} `{HNL : NumL Lt} `{HFN : FromN Nt Lt}.
  Variable M : Mat Nt.
  Variable n : nat.
  Variable D : nat -> nat -> Nt.
  Variable nleb : Nt -> Nt -> bool.
  Hypothesis HM : is_matrix M n D.
  Local Notation v := (vals D).

  (** [idx med (as_usize None)] is out of bounds *)
  Lemma idx_marker A (l : list A) : (N.of_nat (length l) < u32_max)%N -> idx l (as_usize None) = Panic P_index.
  Proof.
    intros h. unfold idx, as_usize.
    assert (e : nth_error l (N.to_nat u32_max) = None) by (apply nth_error_None; lia).
    rewrite e. reflexivity.
  Qed.

  Section Holds.
    Hypothesis HD : diss_matrix M n D.
    Hypothesis HLE : le_ok nleb.

    Lemma okE x y : x < n -> y < n -> okN (D x y).
    Proof. intros hx hy. apply HD; auto. Qed.

    Lemma neqb_refl x y : x < n -> y < n -> neqb (D x y) (D x y) = true.
    Proof. intros hx hy. apply neqb_spec; try apply okE; auto. reflexivity. Qed.

    Lemma debug_holds med data : inr n med -> data_ok n D med data ->
      debug_assert_assignment M nleb med data = Ok tt.
    Proof.
      intros hin [hl hd]. destruct (emb_vals HD) as [he hg].
      assert (h : oks (debug_assert_assignment M nleb med data) (fun _ => True)).
      { unfold debug_assert_assignment. rewrite (len_n HM). apply foldM_inv; auto.
        intros o [] ho _. apply in_seq in ho.
        destruct (nth_error_ex data (i := o)) as [r hr]; [lia|]. rewrite (idx_some _ _ hr). cbn [bind].
        destruct (hd o r hr) as (a & b & ha & hb & hab & [ea da] & [eb db] & hm).
        rewrite ea, eb. cbn [as_usize]. rewrite !idx_nth with (d := 0) by lia. cbn [bind].
        rewrite !(get_ok HM) by (auto using inr_nth; lia). cbn [bind]. rewrite (da hg), (db hg).
        rewrite !neqb_refl by (auto using inr_nth; lia). cbn [assertb bind].
        replace (nleb (D o (nth a med 0)) (D o (nth b med 0))) with true; [exact I|].
        symmetry. apply HLE; try apply okE; auto using inr_nth; try lia. apply (hm hg v he). auto. }
      apply oks_inv in h as ([] & -> & _). auto.
    Qed.

    Lemma debug_th_holds med data : inr n med -> 3 <= length med -> data3_ok n D True med data ->
      debug_assert_assignment_th M nleb med data = Ok tt.
    Proof.
      intros hin hk [hl hd]. destruct (emb_vals HD) as [he hg].
      assert (h : oks (debug_assert_assignment_th M nleb med data) (fun _ => True)).
      { unfold debug_assert_assignment_th. rewrite (len_n HM). apply foldM_inv; auto.
        intros o [] ho _. apply in_seq in ho.
        destruct (nth_error_ex data (i := o)) as [r hr]; [lia|]. rewrite (idx_some _ _ hr). cbn [bind].
        destruct (hd o r hr) as (a & b & ha & hb & hab & [ea da] & [eb db] & hm & h3).
        destruct h3 as [[h3 _]|(_ & c & hc & hca & hcb & [ec dc] & h3)]; [lia|].
        rewrite ea, eb, ec. cbn [as_usize]. rewrite !idx_nth with (d := 0) by lia. cbn [bind].
        rewrite !(get_ok HM) by (auto using inr_nth; lia). cbn [bind]. rewrite (da hg), (db hg), (dc hg).
        rewrite !neqb_refl by (auto using inr_nth; lia). cbn [assertb bind].
        destruct (hm I hg v he) as [m1 m2].
        replace (nleb (D o (nth a med 0)) (D o (nth b med 0))) with true.
        - replace (nleb (D o (nth b med 0)) (D o (nth c med 0))) with true; [exact I|].
          symmetry. apply HLE; try apply okE; auto using inr_nth; try lia. apply m2; auto.
        - symmetry. apply HLE; try apply okE; auto using inr_nth; try lia. apply m1. auto. }
      apply oks_inv in h as ([] & -> & _). auto.
    Qed.
  End Holds.

  (** with two medoids there is no third *)
  Lemma debug_th_panics med data : 1 <= n -> inr n med -> length med = 2 ->
    data3_ok n D True med data ->
    exists p, debug_assert_assignment_th M nleb med data = Panic p /\ (p = P_assert \/ p = P_index).
  Proof.
    intros hn hin hk [hl hd]. unfold debug_assert_assignment_th. rewrite (len_n HM).
    destruct n as [|n']; [lia|]. cbn [seq foldM].
    destruct (nth_error_ex data (i := 0)) as [r hr]; [lia|]. rewrite (idx_some _ _ hr). cbn [bind].
    destruct (hd 0 r hr) as (a & b & ha & hb & hab & [ea da] & [eb db] & hm & h3).
    destruct h3 as [[_ h3]|[h3 _]]; [|lia].
    rewrite ea, eb. cbn [as_usize]. rewrite !idx_nth with (d := 0) by lia. cbn [bind].
    rewrite !(get_ok HM) by (auto using inr_nth; lia). cbn [bind].
    unfold assertb. destruct (neqb _ (dd (near3 r))); cbn [bind]; [|eauto].
    destruct (neqb _ (dd (seco3 r))); cbn [bind]; [|eauto].
    rewrite h3. cbn [di]. rewrite idx_marker by (rewrite hk; reflexivity). cbn [bind]. eauto.
  Qed.

  (** ** the functions: no assertion fails, so that both builds compute the same *)
  Section Same.
    Hypothesis HD : diss_matrix M n D.
    Hypothesis HLE : le_ok nleb.

    Lemma fasterpam_order_dbg_eq order med maxiter : sizes n (length med) -> inr n med ->
      fasterpam_order_dbg (Lt := Lt) M nleb order med maxiter = fasterpam_order M order med maxiter.
    Proof.
      intros hs hin. unfold fasterpam_order_dbg, fasterpam_order.
      destruct (length med =? 1) eqn:e1; [reflexivity|]. apply Nat.eqb_neq in e1.
      assert (hk : 2 <= length med) by (destruct hs; lia).
      pose proof (initial_assignment_ok (Lt := Lt) HM hs hin hk) as h.
      apply oks_inv in h as ([loss data] & -> & hd & _). cbn [bind fst snd] in *.
      rewrite debug_holds by auto. reflexivity.
    Qed.

    Lemma fastpam1_dbg_eq med maxiter : sizes n (length med) -> inr n med ->
      fastpam1_dbg (Lt := Lt) M nleb med maxiter = fastpam1 M med maxiter.
    Proof.
      intros hs hin. unfold fastpam1_dbg, fastpam1.
      destruct (length med =? 1) eqn:e1; [reflexivity|]. apply Nat.eqb_neq in e1.
      assert (hk : 2 <= length med) by (destruct hs; lia).
      pose proof (initial_assignment_ok (Lt := Lt) HM hs hin hk) as h.
      apply oks_inv in h as ([loss data] & -> & hd & _). cbn [bind fst snd] in *.
      rewrite debug_holds by auto. reflexivity.
    Qed.

    Lemma pam_swap_dbg_eq med maxiter : sizes n (length med) -> inr n med ->
      pam_swap_dbg (Lt := Lt) M nleb med maxiter = pam_swap M med maxiter.
    Proof.
      intros hs hin. unfold pam_swap_dbg, pam_swap, pam_optimize_dbg, pam_optimize.
      destruct (length med =? 1) eqn:e1; [reflexivity|]. apply Nat.eqb_neq in e1.
      assert (hk : 2 <= length med) by (destruct hs; lia).
      pose proof (initial_assignment_ok (Lt := Lt) HM hs hin hk) as h.
      apply oks_inv in h as ([loss data] & -> & hd & _). cbn [bind fst snd] in *.
      rewrite debug_holds by auto. reflexivity.
    Qed.

    Lemma pam_dbg_eq k maxiter : sizes n k -> pam_dbg (Lt := Lt) M nleb k maxiter = pam M k maxiter.
    Proof.
      intros hs. assert (hk : 1 <= n /\ 1 <= k) by (destruct hs; lia). destruct hk as [hn hk].
      unfold pam_dbg, pam, pam_optimize_dbg, pam_optimize. rewrite (check_input_ok HM hs). cbn [bind].
      pose proof (build_shape (Lt := Lt) HM hn hk) as h.
      apply oks_inv in h as (st & -> & l & hl & [h1 h2 h3 h4]). cbn [bind].
      destruct (length (b_meds st) =? 1) eqn:e1; [reflexivity|]. apply Nat.eqb_neq in e1.
      rewrite debug_holds; auto. split; auto.
      intros o r hr. destruct (h4 o r hr) as [[q _]|[_ q]]; [lia|]. rewrite h1. auto.
    Qed.

    Lemma par_fasterpam_dbg_eq orc order med maxiter : sizes n (length med) -> inr n med ->
      par_fasterpam_dbg (Lt := Lt) M nleb orc order med maxiter = par_fasterpam M orc order med maxiter.
    Proof.
      intros hs hin. unfold par_fasterpam_dbg, par_fasterpam.
      destruct (length med =? 1) eqn:e1; [reflexivity|]. apply Nat.eqb_neq in e1.
      assert (hk : 2 <= length med) by (destruct hs; lia).
      destruct (par_initial_data (Lt := Lt) HD (o_init orc) hs hin hk) as (loss & loss' & data & e & -> & _).
      pose proof (initial_assignment_ok (Lt := Lt) HM hs hin hk) as h. rewrite e in h. destruct h as [hd _].
      cbn [bind fst snd] in *.
      rewrite debug_holds by auto. reflexivity.
    Qed.

    Lemma fastermsc_dbg_eq med maxiter : sizes n (length med) -> inr n med ->
      fastermsc_dbg (Lt := Lt) M nleb med maxiter = fastermsc M med maxiter.
    Proof.
      intros hs hin. unfold fastermsc_dbg, fastermsc.
      destruct (length med =? 1) eqn:e1; [reflexivity|]. apply Nat.eqb_neq in e1.
      destruct (length med =? 2) eqn:e2; [reflexivity|]. apply Nat.eqb_neq in e2.
      assert (hk : 2 <= length med) by (destruct hs; lia).
      pose proof (initial_assignment3_ok (Lt := Lt) HM True hs hin hk) as h.
      apply oks_inv in h as ([loss data] & -> & hd & _). cbn [bind fst snd] in *.
      rewrite debug_th_holds by (auto; lia). reflexivity.
    Qed.

    Lemma fastmsc_dbg_eq med maxiter : sizes n (length med) -> inr n med ->
      fastmsc_dbg (Lt := Lt) M nleb med maxiter = fastmsc M med maxiter.
    Proof.
      intros hs hin. unfold fastmsc_dbg, fastmsc.
      destruct (length med =? 1) eqn:e1; [reflexivity|]. apply Nat.eqb_neq in e1.
      destruct (length med =? 2) eqn:e2; [reflexivity|]. apply Nat.eqb_neq in e2.
      assert (hk : 2 <= length med) by (destruct hs; lia).
      pose proof (initial_assignment3_ok (Lt := Lt) HM True hs hin hk) as h.
      apply oks_inv in h as ([loss data] & -> & hd & _). cbn [bind fst snd] in *.
      rewrite debug_th_holds by (auto; lia). reflexivity.
    Qed.

    Lemma pammedsil_swap_dbg_eq med maxiter : sizes n (length med) -> inr n med -> length med <> 2 ->
      pammedsil_swap_dbg (Lt := Lt) M nleb med maxiter = pammedsil_swap M med maxiter.
    Proof.
      intros hs hin h2. unfold pammedsil_swap_dbg, pammedsil_swap, pammedsil_optimize_dbg, pammedsil_optimize.
      destruct (length med =? 1) eqn:e1; [reflexivity|]. apply Nat.eqb_neq in e1.
      assert (hk : 2 <= length med) by (destruct hs; lia).
      pose proof (initial_assignment3_ok (Lt := Lt) HM True hs hin hk) as h.
      apply oks_inv in h as ([loss data] & -> & hd & _). cbn [bind fst snd] in *.
      rewrite debug_th_holds by (auto; lia). reflexivity.
    Qed.

    Lemma dynmsc_dbg_eq med mink maxiter : sizes n (length med) -> inr n med -> length med <> 2 ->
      dynmsc_dbg (Lt := Lt) M nleb med mink maxiter = dynmsc M med mink maxiter.
    Proof.
      intros hs hin h2. unfold dynmsc_dbg, dynmsc. cbv zeta.
      destruct (length med =? 1) eqn:e1; [reflexivity|]. apply Nat.eqb_neq in e1.
      assert (hk : 2 <= length med) by (destruct hs; lia).
      pose proof (initial_assignment3_ok (Lt := Lt) HM True hs hin hk) as h.
      apply oks_inv in h as ([loss data] & -> & hd & _). cbn [bind fst snd] in *.
      rewrite debug_th_holds by (auto; lia). reflexivity.
    Qed.

    (** after BUILD: either the same, or exactly two medoids were found and the assertion fails *)
    Lemma pammedsil_dbg_eq (hz : lleb (lzero : Lt) lzero = true) k maxiter : sizes n k ->
      exists st, pammedsil_build_initialize (Lt := Lt) M k = Ok st /\
      if length (b3_meds st) =? 2
      then exists p, pammedsil_dbg (Lt := Lt) M nleb k maxiter = Panic p
      else pammedsil_dbg (Lt := Lt) M nleb k maxiter = pammedsil M k maxiter.
    Proof.
      intros hs. assert (hk : 1 <= n /\ 1 <= k) by (destruct hs; lia). destruct hk as [hn hk].
      unfold pammedsil_dbg, pammedsil, pammedsil_optimize_dbg, pammedsil_optimize.
      rewrite (check_input_ok HM hs). cbn [bind].
      pose proof (build3_shape (Lt := Lt) HM hz hn hk) as h.
      apply oks_inv in h as (st & -> & l & hl & [h1 h2 h3 h4]). cbn [bind]. exists st. split; [auto|].
      destruct (length (b3_meds st) =? 1) eqn:e1.
      - apply Nat.eqb_eq in e1. rewrite e1. reflexivity.
      - apply Nat.eqb_neq in e1.
        assert (hd : data3_ok n D True (b3_meds st) (b3_data st)).
        { split; auto. intros o r hr. destruct (h4 o r hr) as [[q _]|[_ q]]; [lia|]. rewrite h1. auto. }
        destruct (length (b3_meds st) =? 2) eqn:e2.
        + apply Nat.eqb_eq in e2. destruct (debug_th_panics hn h2 e2 hd) as (p & -> & _). exists p. reflexivity.
        + apply Nat.eqb_neq in e2. rewrite debug_th_holds by (auto; lia). reflexivity.
    Qed.
  End Same.

  Lemma two_medoids_panic med mink maxiter : sizes n (length med) -> inr n med -> length med = 2 ->
    (exists p, pammedsil_swap_dbg (Lt := Lt) M nleb med maxiter = Panic p /\ (p = P_assert \/ p = P_index)) /\
    (exists p, dynmsc_dbg (Lt := Lt) M nleb med mink maxiter = Panic p /\ (p = P_assert \/ p = P_index)).
  Proof.
    intros hs hin hk. unfold pammedsil_swap_dbg, pammedsil_optimize_dbg, dynmsc_dbg. cbv zeta.
    assert (hn : 1 <= n) by (destruct hs; lia).
    pose proof (initial_assignment3_ok (Lt := Lt) HM True hs hin ltac:(lia)) as h.
    apply oks_inv in h as ([loss data] & -> & hd & _). cbn [bind fst snd] in *. rewrite hk. cbn [Nat.eqb].
    destruct (debug_th_panics hn hin hk hd) as (p & -> & hp). cbn [bind]. split; exists p; auto.
  Qed.
End Debug.
