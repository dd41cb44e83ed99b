(** AllMedoids.v -- as many medoids as objects: every object is its own medoid, and no algorithm changes anything. *)
From Coq Require Import ZArith QArith Lqa Lia.
From Verif Require Greedy.
From Verif Require Import Base Num M_Mat M_Util M_Fasterpam M_Pam M_Alternating M_ParFasterpam M_Silhouette M_Msc M_Pammedsil M_Dynmsc
  Hoare Spec SpecFacts Laws PamShape PamMain ChooseFacts AltFacts ParFacts FloatMain PamExact MscShape MscExact MscFacts DynShape DynFacts DynExact GroupMsc GroupDyn.
Set Implicit Arguments.
Open Scope nat_scope.

Lemma forM_skip A S (f : S -> A -> res (ctl S)) l s : (forall a, In a l -> f s a = Ok (Next s)) -> forM f l s = Ok s.
Proof.
  induction l as [|a l IH]; cbn [forM]; intros h; [reflexivity|]. rewrite (h a (or_introl eq_refl)). cbn [bind].
  apply IH. intros b hb. apply h. right. exact hb.
Qed.
Lemma foldM_skip A S (f : S -> A -> res S) l s : (forall a, In a l -> f s a = Ok s) -> foldM f l s = Ok s.
Proof.
  induction l as [|a l IH]; cbn [foldM]; intros h; [reflexivity|]. rewrite (h a (or_introl eq_refl)). cbn [bind].
  apply IH. intros b hb. apply h. right. exact hb.
Qed.
Lemma fold_same A (op : A -> A -> A) z l : op z z = z -> (forall x, In x l -> x = z) -> fold_left op l z = z.
Proof.
  intros hz. induction l as [|a l IH]; cbn [fold_left]; intros h; [reflexivity|]. rewrite (h a (or_introl eq_refl)), hz.
  apply IH. intros x hx. apply h. right. exact hx.
Qed.
Lemma reduce_same A (op : A -> A -> A) z l y : op z z = z -> (forall x, In x l -> x = z) -> reduce op l = Some y -> y = z.
Proof.
  intros hz h. destruct l as [|a l]; cbn [reduce]; [discriminate|]. intros e. injection e as <-.
  rewrite (h a (or_introl eq_refl)). apply fold_same; [exact hz|]. intros x hx. apply h. right. exact hx.
Qed.
Lemma treduce_same A (op : A -> A -> A) z t : op z z = z -> forall l y, (forall x, In x l -> x = z) -> treduce op t l = Some y -> y = z.
Proof.
  intros hz. induction t as [|p t1 IH1 t2 IH2]; intros l y h; cbn [treduce]; [apply reduce_same; auto|].
  assert (h1 : forall x, In x (firstn p l) -> x = z) by (intros x hx; apply h; rewrite <- (firstn_skipn p l); apply in_or_app; auto).
  assert (h2 : forall x, In x (skipn p l) -> x = z) by (intros x hx; apply h; rewrite <- (firstn_skipn p l); apply in_or_app; auto).
  destruct (treduce op t1 (firstn p l)) as [a|] eqn:e1; destruct (treduce op t2 (skipn p l)) as [b|] eqn:e2; intros e; try discriminate e;
    injection e as <-; [rewrite (IH1 _ _ h1 e1), (IH2 _ _ h2 e2); exact hz|apply (IH1 _ _ h1 e1)|apply (IH2 _ _ h2 e2)].
Qed.

Section All.
  Context {Nt Lt : Type} `{HO : OrdLaws Nt} `{HNL : NumL Lt} `{HFN : FromN Nt Lt}.
  Variable M : Mat Nt.
  Variable n : nat.
  Variable D : nat -> nat -> Nt.
  Hypothesis HD : diss_matrix M n D.
  Variable med : list nat.
  Hypothesis hs : sizes n n.
  Hypothesis hlen : length med = n.
  Hypothesis hnd : NoDup med.
  Hypothesis hin : inr n med.
  Hypothesis hn : 2 <= n.

  Let HM : is_matrix M n D := proj1 HD.

  Lemma hsl : sizes n (length med).
  Proof. rewrite hlen. exact hs. Qed.
  Lemma hkl : 2 <= length med.
  Proof. rewrite hlen. exact hn. Qed.

  Lemma every_object o : o < n -> exists m, m < length med /\ nth m med 0 = o.
  Proof.
    intros ho. assert (h : incl (seq 0 n) med).
    { apply NoDup_length_incl; [exact hnd|rewrite seq_length; lia|]. intros x hx. apply in_seq. specialize (hin x hx). lia. }
    apply (In_nth med o 0), h, in_seq. lia.
  Qed.

  (** every object is assigned to itself, at no cost *)
  Definition at_home (data : list (Rec Nt)) : Prop :=
    length data = n /\ forall o, o < n -> exists r m, nth_error data o = Some r /\ di (near r) = Some m /\ nth_error med m = Some o /\
      dd (near r) = nzero.

  Lemma init_home : exists (loss : Lt) data, initial_assignment M med = Ok (loss, data) /\ data_ok n D med data /\ at_home data /\
    near_sum data = Some loss.
  Proof.
    destruct (emb_vals HD) as [he hg].
    pose proof (initial_assignment_ok (Lt := Lt) HM hsl hin hkl) as h. apply oks_inv in h as ([loss data] & e & hd & hsum & hown).
    cbn [fst snd] in *. exists loss, data. do 2 (split; [assumption|]). split; [|exact hsum]. destruct hd as [hl hd]. split; [exact hl|].
    intros o ho. destruct (nth_error data o) as [r|] eqn:er; [|apply nth_error_None in er; lia].
    destruct (every_object ho) as (m & hm & em). pose proof (hown _ hg he hnd o r er m hm em) as h1.
    destruct (hd o r er) as (a & b & ha & _ & _ & [d1 d2] & _). assert (a = m) as -> by congruence.
    exists r, m. split; [reflexivity|]. split; [exact h1|]. split; [rewrite <- em; apply nth_error_nth'; exact hm|].
    rewrite (d2 hg), em. apply hg. exact ho.
  Qed.

  Lemma home_assi data : at_home data -> length (assignment_of data) = n /\
    forall o, o < n -> nth_error med (nth o (assignment_of data) 0) = Some o.
  Proof.
    intros [hl h]. unfold assignment_of. rewrite map_length. split; [exact hl|]. intros o ho.
    destruct (h o ho) as (r & m & e & e1 & e2 & _). rewrite (nth_error_nth _ o 0 (x := m)); [exact e2|].
    rewrite nth_error_map, e. cbn. rewrite e1. reflexivity.
  Qed.

  Lemma home_zero data x : at_home data -> In x (map (fun r => lfrom (dd (near r))) data) -> x = (lfrom (nzero : Nt) : Lt).
  Proof.
    intros [hl h] hx. apply in_map_iff in hx as (r & <- & hr). apply In_nth_error in hr as [o er].
    assert (ho : o < n) by (apply nth_error_lt in er; lia). destruct (h o ho) as (r' & m & e & _ & _ & ed).
    rewrite er in e. injection e as <-. rewrite ed. reflexivity.
  Qed.

  Lemma home_skip data j (S : Type) (k : res S) (f : res S) : at_home data -> j < n ->
    (rj <- idx data j ;; mj <- idx med (as_usize (di (near rj))) ;; if j =? mj then k else f) = k.
  Proof.
    intros [_ h] hj. destruct (h j hj) as (r & m & e & e1 & e2 & _). rewrite (idx_some _ _ e). cbn [bind]. rewrite e1. cbn [as_usize].
    rewrite (idx_some _ _ e2). cbn [bind]. rewrite Nat.eqb_refl. reflexivity.
  Qed.

  Lemma zero_loss data loss : at_home data -> near_sum (Lt := Lt) data = Some loss ->
    ladd (lfrom (nzero : Nt)) (lfrom (nzero : Nt)) = (lfrom (nzero : Nt) : Lt) -> loss = lfrom (nzero : Nt).
  Proof. intros hh hsum hz. apply (reduce_same _ _ hz) in hsum; [exact hsum|]. intros x. apply home_zero. exact hh. Qed.

  Hypothesis hz : ladd (lfrom (nzero : Nt)) (lfrom (nzero : Nt)) = (lfrom (nzero : Nt) : Lt).

  Definition stays (maxiter : nat) (r : res (pam_result Lt)) : Prop :=
    exists assi, r = Ok (mkPR (lfrom (nzero : Nt)) assi (Nat.min 1 maxiter) 0 med) /\
      length assi = n /\ forall o, o < n -> nth_error med (nth o assi 0) = Some o.

  Lemma ne1 : (length med =? 1) = false.
  Proof. apply Nat.eqb_neq. rewrite hlen. lia. Qed.

  Lemma fasterpam_stays order maxiter : (forall j, In j order -> j < n) -> stays maxiter (fasterpam_order M order med maxiter).
  Proof.
    intros ho. destruct init_home as (loss & data & e & hd & hh & hsum).
    pose proof (zero_loss hh hsum hz) as ->. unfold fasterpam_order. rewrite ne1, e. cbn [bind].
    pose proof (update_removal_loss_len (repeat (lzero : Lt) (length med)) hd (repeat_length _ _)) as h.
    apply oks_inv in h as (rl & -> & _). cbn [bind]. rewrite (len_n HM). exists (assignment_of data). split; [|apply home_assi; exact hh].
    destruct maxiter as [|t]; [reflexivity|]. cbn [whileM]. unfold fp_iteration at 1. cbn [fp_med fp_data fp_rl fp_loss fp_last fp_swaps fp_iter].
    rewrite forM_skip; [cbn; reflexivity|]. intros j hj. specialize (ho j hj). unfold fp_cand. cbn [fp_med fp_data fp_rl fp_loss fp_last fp_swaps fp_iter].
    replace (j =? n) with false by (symmetry; apply Nat.eqb_neq; lia). apply home_skip; assumption.
  Qed.

  Lemma par_stays orc order maxiter : (forall j, In j order -> j < n) -> stays maxiter (par_fasterpam M orc order med maxiter).
  Proof.
    intros ho. destruct init_home as (loss0 & data & e & hd & hh & _).
    destruct (par_initial_data (Lt := Lt) HD (o_init orc) hsl hin hkl) as (l1 & loss & data' & e1 & e2 & hsum).
    rewrite e in e1. injection e1 as <- <-.
    apply (treduce_same _ _ hz) in hsum; [|intros x; apply home_zero; exact hh]. subst loss.
    unfold par_fasterpam. rewrite ne1, e2. cbn [bind].
    pose proof (update_removal_loss_len (repeat (lzero : Lt) (length med)) hd (repeat_length _ _)) as h.
    apply oks_inv in h as (rl & -> & _). cbn [bind]. rewrite (len_n HM). exists (assignment_of data). split; [|apply home_assi; exact hh].
    destruct maxiter as [|t]; [reflexivity|]. cbn [whileM]. unfold par_iteration at 1. cbn [fp_med fp_data fp_rl fp_loss fp_last fp_swaps fp_iter].
    rewrite forM_skip; [cbn; reflexivity|]. intros j hj. specialize (ho j hj). unfold par_cand. cbn [fp_med fp_data fp_rl fp_loss fp_last fp_swaps fp_iter].
    replace (j =? n) with false by (symmetry; apply Nat.eqb_neq; lia). apply home_skip; assumption.
  Qed.

  Hypothesis hlt : lltb (lzero : Lt) lzero = false.

  Lemma fastpam1_stays maxiter : stays maxiter (fastpam1 M med maxiter).
  Proof.
    destruct init_home as (loss & data & e & hd & hh & hsum). pose proof (zero_loss hh hsum hz) as ->.
    unfold fastpam1. rewrite ne1, e. cbn [bind]. exists (assignment_of data). split; [|apply home_assi; exact hh].
    destruct maxiter as [|t]; [reflexivity|]. cbn [whileM]. unfold fastpam1_iteration at 1. cbn [p_med p_data p_rl p_loss p_swaps p_iter].
    pose proof (update_removal_loss_len (repeat (lzero : Lt) (length med)) hd (repeat_length _ _)) as h.
    apply oks_inv in h as (rl & -> & _). cbn [bind]. rewrite (len_n HM).
    rewrite foldM_skip; [|intros j hj; apply in_seq in hj; apply home_skip; [exact hh|lia]].
    cbn [bind]. unfold swap_best. cbn [fst snd]. rewrite hlt. reflexivity.
  Qed.

  Lemma pam_swap_stays maxiter : stays maxiter (pam_swap M med maxiter).
  Proof.
    destruct init_home as (loss & data & e & hd & hh & hsum). pose proof (zero_loss hh hsum hz) as ->.
    unfold pam_swap, pam_optimize. rewrite e. cbn [bind]. rewrite ne1. exists (assignment_of data). split; [|apply home_assi; exact hh].
    destruct maxiter as [|t]; [reflexivity|]. cbn [whileM]. unfold pam_iteration at 1. cbn [p_med p_data p_rl p_loss p_swaps p_iter].
    rewrite (len_n HM). rewrite foldM_skip; [|intros j hj; apply in_seq in hj; apply home_skip; [exact hh|lia]].
    cbn [bind]. unfold swap_best. cbn [fst snd]. rewrite hlt. reflexivity.
  Qed.

  Lemma set_same (l : list nat) i x : nth_error l i = Some x -> set_nth l i x = l.
  Proof.
    revert i. induction l as [|a l IH]; intros [|i]; cbn [nth_error set_nth]; intros h; try discriminate h.
    - injection h as ->. reflexivity.
    - rewrite (IH i h). reflexivity.
  Qed.

  Lemma alternating_stays maxiter : stays maxiter (alternating M med maxiter).
  Proof.
    destruct (emb_vals HD) as [he hg].
    pose proof (assign_nearest_ok (Lt := Lt) HM hsl hin) as h. apply oks_inv in h as ([loss assi] & e & hl & hgood & hsum). cbn [fst snd] in *.
    assert (ha : forall o, o < n -> nth_error med (nth o assi 0) = Some o).
    { intros o ho. destruct (every_object ho) as (m & hm & em). destruct (hgood o ho) as (_ & _ & h & _).
      rewrite (h _ he hnd m hm em). rewrite <- em. apply nth_error_nth'. exact hm. }
    assert (loss = lfrom (nzero : Nt)) as ->.
    { apply (reduce_same _ _ hz) in hsum; [exact hsum|]. intros x hx. apply in_map_iff in hx as (o & <- & ho). apply in_seq in ho.
      rewrite (nth_error_nth _ _ 0 (ha o ltac:(lia))). rewrite hg by lia. reflexivity. }
    exists assi. split; [|split; [exact hl|exact ha]]. unfold alternating. rewrite e. cbn [bind].
    destruct maxiter as [|t]; [reflexivity|]. cbn [whileM]. unfold alt_iteration at 1. cbn [al_med al_assi al_loss al_iter].
    assert (hm : alt_medoids (Lt := Lt) M assi med = Ok (med, false)).
    { unfold alt_medoids. apply foldM_skip. intros i hi. apply in_seq in hi.
      pose proof (choose_shape (Lt := Lt) HM assi (med := med) (m := i) hl ltac:(lia) hin) as h.
      apply oks_inv in h as ([[med' c] s] & -> & best & hb & -> & -> & hcase). cbn [bind].
      assert (eb : nth i med 0 = best).
      { destruct hcase as [->|hc]; [reflexivity|]. apply nth_error_nth. rewrite <- hc. apply ha. exact hb. }
      assert (er : nth_error med i = Some best) by (rewrite <- eb; apply nth_error_nth'; lia).
      rewrite (set_same _ _ er), eb, Nat.eqb_refl. reflexivity. }
    rewrite hm. cbn. reflexivity.
  Qed.

  (** ** the medoid silhouette *)
  Definition at_home3 (data : list (Reco Nt)) : Prop :=
    length data = n /\ forall o, o < n -> exists r m, nth_error data o = Some r /\ di (near3 r) = Some m /\ nth_error med m = Some o /\
      dd (near3 r) = nzero.

  Lemma init_home3 : exists (loss : Lt) data, initial_assignment3 M med = Ok (loss, data) /\ data3_ok n D True med data /\ at_home3 data /\
    ratio_sum data = Some loss.
  Proof.
    destruct (emb_vals HD) as [he hg].
    pose proof (initial_assignment3_ok (Lt := Lt) HM True hsl hin hkl) as h. apply oks_inv in h as ([loss data] & e & hd & hsum & hown).
    cbn [fst snd] in *. exists loss, data. do 2 (split; [assumption|]). split; [|exact hsum]. destruct hd as [hl hd]. split; [exact hl|].
    intros o ho. destruct (nth_error data o) as [r|] eqn:er; [|apply nth_error_None in er; lia].
    destruct (every_object ho) as (m & hm & em). pose proof (hown _ I hg he hnd o r er m hm em) as h1.
    destruct (hd o r er) as (a & b & ha & _ & _ & [d1 d2] & _). assert (a = m) as -> by congruence.
    exists r, m. split; [reflexivity|]. split; [exact h1|]. split; [rewrite <- em; apply nth_error_nth'; exact hm|].
    rewrite (d2 hg), em. apply hg. exact ho.
  Qed.

  Lemma home3_assi data : at_home3 data -> length (assignment3_of data) = n /\
    forall o, o < n -> nth_error med (nth o (assignment3_of data) 0) = Some o.
  Proof.
    intros [hl h]. unfold assignment3_of. rewrite map_length. split; [exact hl|]. intros o ho.
    destruct (h o ho) as (r & m & e & e1 & e2 & _). rewrite (nth_error_nth _ o 0 (x := m)); [exact e2|].
    rewrite nth_error_map, e. cbn. rewrite e1. reflexivity.
  Qed.

  Lemma zero_is_zero : nis_zero (nzero : Nt) = true.
  Proof.
    pose proof (proj1 (proj2 HD)) as h2. pose proof (proj2 (proj2 HD)) as h3. rewrite <- (h2 0) by lia. apply nis_zero_spec; [apply h3; lia|].
    rewrite (h2 0) by lia. apply vN_zero.
  Qed.

  Lemma zero_loss3 data loss : at_home3 data -> ratio_sum (Lt := Lt) data = Some loss ->
    ladd (lzero : Lt) lzero = lzero -> loss = lzero.
  Proof.
    intros [hl h] hsum hz0. apply (reduce_same _ _ hz0) in hsum; [exact hsum|].
    intros x hx. apply in_map_iff in hx as (r & <- & hr). apply In_nth_error in hr as [o er].
    assert (ho : o < n) by (apply nth_error_lt in er; lia). destruct (h o ho) as (r' & m & e & _ & _ & ed).
    rewrite er in e. injection e as <-. unfold rec_ratio, ratio. rewrite ed, zero_is_zero. reflexivity.
  Qed.

  Lemma home3_skip data j (S : Type) (k : res S) (f : res S) : at_home3 data -> j < n ->
    (rj <- idx data j ;; mj <- idx med (as_usize (di (near3 rj))) ;; if j =? mj then k else f) = k.
  Proof.
    intros [_ h] hj. destruct (h j hj) as (r & m & e & e1 & e2 & _). rewrite (idx_some _ _ e). cbn [bind]. rewrite e1. cbn [as_usize].
    rewrite (idx_some _ _ e2). cbn [bind]. rewrite Nat.eqb_refl. reflexivity.
  Qed.

  Hypothesis hz0 : ladd (lzero : Lt) lzero = lzero.

  Definition stays3 (maxiter : nat) (r : res (pam_result Lt)) : Prop :=
    exists assi, r = Ok (mkPR (to_silhouette M lzero) assi (Nat.min 1 maxiter) 0 med) /\
      length assi = n /\ forall o, o < n -> nth_error med (nth o assi 0) = Some o.

  (** the search with all objects as medoids does nothing *)
  Lemma search_stays data rl (loss : Lt) maxiter : at_home3 data ->
    whileM maxiter (msc_iteration M) (mkM med data rl loss n 0 0) = Ok (mkM med data rl loss n 0 (Nat.min 1 maxiter)).
  Proof.
    intros hh. destruct maxiter as [|t]; [reflexivity|]. cbn [whileM]. unfold msc_iteration at 1.
    cbn [m_med m_data m_rl m_loss m_last m_swaps m_iter]. rewrite (len_n HM).
    rewrite forM_skip; [cbn; reflexivity|]. intros j hj. apply in_seq in hj. unfold msc_cand. cbn [m_med m_data m_rl m_loss m_last m_swaps m_iter].
    replace (j =? n) with false by (symmetry; apply Nat.eqb_neq; lia). apply home3_skip; [exact hh|lia].
  Qed.

  Lemma fastermsc_stays maxiter : 3 <= n -> stays3 maxiter (fastermsc M med maxiter).
  Proof.
    intros h3. destruct init_home3 as (loss & data & e & hd & hh & hsum). pose proof (zero_loss3 hh hsum hz0) as ->.
    unfold fastermsc. rewrite ne1. replace (length med =? 2) with false by (symmetry; apply Nat.eqb_neq; lia). rewrite e. cbn [bind].
    pose proof (update_removal_loss3_len (repeat (lzero : Lt) (length med)) hd (repeat_length _ _)) as h.
    apply oks_inv in h as (rl & -> & _). cbn [bind]. rewrite (len_n HM), (search_stays rl lzero maxiter hh). cbn.
    exists (assignment3_of data). split; [reflexivity|apply home3_assi; exact hh].
  Qed.

  Lemma fastmsc_stays maxiter : 3 <= n -> stays3 maxiter (fastmsc M med maxiter).
  Proof.
    intros h3. destruct init_home3 as (loss & data & e & hd & hh & hsum). pose proof (zero_loss3 hh hsum hz0) as ->.
    unfold fastmsc. rewrite ne1. replace (length med =? 2) with false by (symmetry; apply Nat.eqb_neq; lia). rewrite e. cbn [bind].
    exists (assignment3_of data). split; [|apply home3_assi; exact hh].
    destruct maxiter as [|t]; [reflexivity|]. cbn [whileM]. unfold fastmsc_iteration at 1. cbn [m_med m_data m_rl m_loss m_last m_swaps m_iter].
    pose proof (update_removal_loss3_len (repeat (lzero : Lt) (length med)) hd (repeat_length _ _)) as h.
    apply oks_inv in h as (rl & -> & _). cbn [bind]. rewrite (len_n HM).
    rewrite foldM_skip; [|intros j hj; apply in_seq in hj; apply home3_skip; [exact hh|lia]].
    cbn [bind]. unfold swap_best3. cbn [fst snd]. rewrite hlt. reflexivity.
  Qed.

  Lemma pammedsil_swap_stays maxiter : stays3 maxiter (pammedsil_swap M med maxiter).
  Proof.
    destruct init_home3 as (loss & data & e & hd & hh & hsum). pose proof (zero_loss3 hh hsum hz0) as ->.
    unfold pammedsil_swap, pammedsil_optimize. rewrite e. cbn [bind]. rewrite ne1.
    exists (assignment3_of data). split; [|apply home3_assi; exact hh].
    destruct maxiter as [|t]; [reflexivity|]. cbn [whileM]. unfold pms_iteration at 1. cbn [m_med m_data m_rl m_loss m_last m_swaps m_iter].
    rewrite (len_n HM).
    rewrite foldM_skip; [|intros j hj; apply in_seq in hj; apply home3_skip; [exact hh|lia]].
    cbn [bind]. unfold swap_best3. cbn [fst snd]. rewrite hlt. reflexivity.
  Qed.

  (** the first round of dynmsc *)
  Lemma first_round maxiter c s : rounds (Lt := Lt) M n med maxiter c s -> c = n -> 3 <= n ->
    m_med s = med /\ m_loss s = lzero /\ length (assignment3_of (m_data s)) = n /\
    forall o, o < n -> nth_error med (nth o (assignment3_of (m_data s)) 0) = Some o.
  Proof.
    intros hr ec h3. destruct hr as [loss data rl s e1 e2 e3|c0 s b med' data' loss' rl' s' h1].
    - destruct init_home3 as (loss1 & data1 & e & hd & hh & hsum). rewrite e in e1. injection e1 as <- <-.
      rewrite (search_stays rl loss1 maxiter hh) in e3. injection e3 as <-. cbn [m_med m_loss m_data].
      split; [reflexivity|]. split; [apply (zero_loss3 hh hsum hz0)|apply home3_assi; exact hh].
    - pose proof (rounds_stage HM hsl hin ltac:(lia) h1) as hst. pose proof (sg_le hst) as h. lia.
  Qed.
End All.

(** ** exact arithmetic: with fewer medoids the medoid silhouette stays below 1 *)
Section Below.
  Context {Nt Lt : Type} `{HLL : LossLaws Nt Lt} `{HAL : !AddLaws Nt} `{HDL : !DivLaws Nt Lt}.
  Variable M : Mat Nt.
  Variable n : nat.
  Variable D : nat -> nat -> Nt.
  Hypothesis HD : diss_matrix M n D.
  Hypothesis Hpos : forall x y, x < n -> y < n -> x <> y -> (0 < vals D x y)%Q.

  Lemma outside med : length med < n -> exists o, o < n /\ ~ In o med.
  Proof.
    intros h. destruct (@GroupDyn.not_medoid (seq 0 n) med (seq_NoDup n 0)) as (o & h1 & h2); [rewrite seq_length; exact h|].
    apply in_seq in h1. exists o. split; [lia|exact h2].
  Qed.

  Lemma med_sil_below med : 2 <= length med < n -> (forall m, In m med -> m < n) -> (med_sil (vals D) n med < 1)%Q.
  Proof.
    intros hl hin. destruct (outside med (proj2 hl)) as (o & ho & hno).
    set (x := near_ratio (vals D) o med).
    assert (hx : (0 < x)%Q).
    { pose proof (@two_least_ex (map (vals D o) med)) as h. rewrite map_length in h. destruct (h (proj1 hl)) as (rest & q1 & _).
      unfold x, near_ratio. set (a := nth 0 (sortQ (map (vals D o) med)) 0%Q) in *. set (b := nth 1 (sortQ (map (vals D o) med)) 0%Q) in *.
      assert (hp : forall y, In y (a :: b :: rest) -> (0 < y)%Q).
      { intros y hy. apply (Permutation.Permutation_in y (Permutation.Permutation_sym q1)) in hy. apply in_map_iff in hy as (m & <- & hm).
        apply Hpos; [exact ho|apply hin; exact hm|intros c; subst; contradiction]. }
      apply Qlt_shift_div_l; [apply hp; right; left; reflexivity|]. rewrite Qmult_0_l. apply hp. left. reflexivity. }
    pose proof (missing_sil n 2 (vals D) (proj2 (proj1 (emb_vals HD))) (le_n 2) x med o (proj1 hl) hin ho (Qle_refl _)) as h.
    assert (hz : (0 < inject_Z (Z.of_nat n))%Q) by (change 0%Q with (inject_Z 0); rewrite <- Zlt_Qlt; lia).
    apply Qnot_le_lt. intros c. nra.
  Qed.

  Lemma ratios_below med (data : list (Reco Nt)) (loss : Lt) X : data3_ok n D X med data -> ratio_sum data = Some loss ->
    length med < n -> inr n med -> (0 < vL loss)%Q.
  Proof.
    intros [hl hd] hsum hk hin. destruct (emb_vals HD) as [he hg]. apply reduce_sum in hsum. rewrite hsum, sumQ_map.
    assert (hr : forall o r, nth_error data o = Some r -> (0 <= vL (rec_ratio r : Lt))%Q /\ (~ In o med -> (0 < vL (rec_ratio r : Lt))%Q)).
    { intros o r er. assert (ho : o < n) by (apply nth_error_lt in er; lia).
      destruct (hd o r er) as (a & b & ha & hb & _ & [_ d1] & [_ d2] & _).
      pose proof (inr_nth hin ha) as h1. pose proof (inr_nth hin hb) as h2. unfold rec_ratio. rewrite (d1 hg), (d2 hg).
      rewrite (vL_ratio_D HD ho h1 ho h2). split.
      - pose proof (emb_pos he ho h1). pose proof (emb_pos he ho h2). apply Qmult_le_0_compat; [assumption|apply Qinv_le_0_compat; assumption].
      - intros hno. assert (p1 : (0 < vals D o (nth a med 0%nat))%Q) by (apply Hpos; auto; intros c; apply hno; rewrite c; apply nth_In; exact ha).
        assert (p2 : (0 < vals D o (nth b med 0%nat))%Q) by (apply Hpos; auto; intros c; apply hno; rewrite c; apply nth_In; exact hb).
        apply Qlt_shift_div_l; [exact p2|]. rewrite Qmult_0_l. exact p1. }
    destruct (outside med hk) as (o & ho & hno). destruct (nth_error data o) as [r|] eqn:er; [|apply nth_error_None in er; lia].
    pose proof (proj2 (hr o r er) hno) as hp.
    assert (hge : (vL (rec_ratio r : Lt) <= sumQ (fun x => vL (rec_ratio x : Lt)) data)%Q).
    { apply (Greedy.sumQ_ge_one (fun x => vL (rec_ratio x : Lt))); [apply nth_error_In with (1 := er)|].
      intros x hx. apply In_nth_error in hx as [i hx]. apply (hr i x hx). }
    lra.
  Qed.
End Below.
