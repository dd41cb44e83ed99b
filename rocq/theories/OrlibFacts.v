(** OrlibFacts.v -- Floyd's algorithm of the example program (M_Orlib.v) computes shortest walks, for integers of any
    kind whose additions do not overflow; what happens when they do. *)
From Coq Require Import ZArith Lia.
From Verif Require Import Base Num M_Mat M_Orlib Hoare Laws SpecGraph.
Set Implicit Arguments.
Open Scope nat_scope.

(** ** matrices as functions *)
Definition is_arr {T} (a : Array2 T) (n : nat) (D : nat -> nat -> T) : Prop :=
  a_rows a = n /\ a_cols a = n /\
  forall x y, x < n -> y < n -> nth_error (a_cells a) (x * n + y) = Some (D x y).

Definition fset {T} (D : nat -> nat -> T) (x y : nat) (v : T) : nat -> nat -> T :=
  fun a b => if (a =? x) && (b =? y) then v else D a b.

Lemma cell_lt n x y : x < n -> y < n -> x * n + y < n * n.
Proof. intros hx hy. nia. Qed.
Lemma cell_inj n x y a b : y < n -> b < n -> x * n + y = a * n + b -> x = a /\ y = b.
Proof. intros hy hb e. assert (x = a) by nia. subst. split; [reflexivity|]. lia. Qed.

Lemma a_get_ok T (a : Array2 T) n D x y : is_arr a n D -> x < n -> y < n -> a_get a x y = Ok (D x y).
Proof.
  intros (h1 & h2 & h4) hx hy. unfold a_get. rewrite h1, h2, (proj2 (Nat.ltb_lt x n) hx), (proj2 (Nat.ltb_lt y n) hy).
  cbn [andb]. apply idx_some. apply h4; assumption.
Qed.

Lemma a_set_ok T (a : Array2 T) n D x y v : is_arr a n D -> x < n -> y < n ->
  oks (a_set a x y v) (fun a' => is_arr a' n (fset D x y v)).
Proof.
  intros (h1 & h2 & h4) hx hy. unfold a_set. rewrite h1, h2, (proj2 (Nat.ltb_lt x n) hx), (proj2 (Nat.ltb_lt y n) hy).
  cbn [andb]. pose proof (nth_error_lt _ _ (h4 x y hx hy)) as hc. rewrite upd_ok by exact hc. cbn [bind oks].
  split; [reflexivity|]. split; [reflexivity|]. cbn [a_cells].
  intros p q hp hq. pose proof (nth_error_lt _ _ (h4 p q hp hq)) as hc'. unfold fset.
  rewrite (nth_error_nth' _ v) by (rewrite length_set_nth; lia). f_equal.
  destruct (Nat.eqb_spec p x) as [->|np].
  - destruct (Nat.eqb_spec q y) as [->|nq]; cbn [andb].
    + apply nth_set_nth_eq. lia.
    + rewrite nth_set_nth_neq by lia. apply nth_error_nth. apply h4; assumption.
  - cbn [andb]. rewrite nth_set_nth_neq by (intros e; apply np; exact (proj1 (cell_inj _ _ hq hy e))).
    apply nth_error_nth. apply h4; assumption.
Qed.

Lemma is_arr_matrix T (a : Array2 T) n D : is_arr a n D <-> is_matrix (mat_of_array2 a) n D.
Proof.
  split; cycle 1.
  { intros (h1 & h2 & h3). cbn [mlen msquare mat_of_array2] in h1, h2. injection h2 as h2. apply Nat.eqb_eq in h2. split; [exact h1|]. split; [lia|].
    intros x y hx hy. specialize (h3 x y hx hy). cbn [mget mat_of_array2] in h3. rewrite <- h2, h1 in h3.
    rewrite (proj2 (Nat.ltb_lt x n) hx), (proj2 (Nat.ltb_lt y n) hy) in h3. cbn [andb] in h3. unfold idx in h3.
    destruct (nth_error (a_cells a) (x * n + y)); [injection h3 as ->; reflexivity|discriminate]. }
  intros h. pose proof h as (h1 & h2 & _). split; [exact h1|]. split; [cbn; rewrite h1, h2, Nat.eqb_refl; reflexivity|].
  intros x y hx hy. exact (a_get_ok h hx hy).
Qed.

Lemma is_arr_repeat T n (v : T) : is_arr (mkArray2 n n (repeat v (n * n))) n (fun _ _ => v).
Proof.
  split; [reflexivity|]. split; [reflexivity|]. intros x y hx hy. pose proof (cell_lt hx hy). cbn [a_cells].
    rewrite (nth_error_nth' _ v) by (rewrite repeat_length; lia). f_equal. apply nth_repeat.
Qed.

(** ** walks *)
Section Walks.
  Variable w : nat -> nat -> Z.
  Variable n : nat.
  Hypothesis Hpos : forall x y, x < n -> y < n -> (0 <= w x y)%Z.
  Hypothesis Hdiag : forall x, x < n -> w x x = 0%Z.
  Hypothesis Hsym : forall x y, x < n -> y < n -> w x y = w y x.

  Definition below (i : nat) (p : list nat) : Prop := forall z, In z p -> z < i.

  Lemma walk_app x p z q y : walk_len w x (p ++ z :: q) y = (walk_len w x p z + walk_len w z q y)%Z.
  Proof. revert x. induction p as [|a p IH]; intros x; cbn [walk_len app]; [reflexivity|]. rewrite IH. lia. Qed.

  Lemma walk_pos x p y : x < n -> y < n -> below n p -> (0 <= walk_len w x p y)%Z.
  Proof.
    revert x. induction p as [|a p IH]; intros x hx hy hp; cbn [walk_len]; [auto|].
    assert (ha : a < n) by (apply hp; left; reflexivity).
    assert (h := Hpos hx ha). assert (h' := IH a ha hy (fun z hz => hp z (or_intror hz))). lia.
  Qed.

  Lemma walk_rev x p y : x < n -> y < n -> below n p -> walk_len w y (rev p) x = walk_len w x p y.
  Proof.
    revert x. induction p as [|a p IH]; intros x hx hy hp; cbn [walk_len rev].
    - auto.
    - assert (ha : a < n) by (apply hp; left; reflexivity).
      rewrite walk_app. cbn [walk_len]. rewrite IH; auto; [|intros z hz; apply hp; right; exact hz].
      rewrite (Hsym ha hx). lia.
  Qed.

  (** [d] is what Floyd's algorithm has after the stages below [i] *)
  Definition upto (i : nat) (d : nat -> nat -> Z) : Prop :=
    (forall x y, x < n -> y < n -> exists p, below n p /\ walk_len w x p y = d x y) /\
    (forall x y p, x < n -> y < n -> below i p -> (d x y <= walk_len w x p y)%Z).

  Lemma upto_0 : upto 0 w.
  Proof.
    split.
    - intros x y hx hy. exists []. split; [intros z []|reflexivity].
    - intros x y [|a p] hx hy hp; cbn [walk_len]; [lia|]. exfalso. specialize (hp a (or_introl eq_refl)). lia.
  Qed.

  Definition relax (d : nat -> nat -> Z) (i x y : nat) : Z := Z.min (d x y) (d x i + d i y).

  (** a walk from [i] may as well not return to [i] *)
  Lemma from_i i d y p : i < n -> y < n -> upto i d -> below (S i) p -> (d i y <= walk_len w i p y)%Z.
  Proof.
    intros hi hy hu. remember (length p) as k eqn:ek. assert (hk : length p <= k) by lia. clear ek.
    revert p hk. induction k as [|k IH]; intros p hk hp.
    - apply hu; auto. destruct p; [intros z []|cbn in hk; lia].
    - destruct (in_dec Nat.eq_dec i p) as [hin|hin].
      + apply in_split in hin. destruct hin as (p1 & p2 & ->). rewrite walk_app.
        assert (h1 : (0 <= walk_len w i p1 i)%Z).
        { apply walk_pos; auto. intros z hz. assert (z < S i) by (apply hp; apply in_or_app; left; exact hz). lia. }
        assert (h2 : (d i y <= walk_len w i p2 y)%Z).
        { apply IH.
          - rewrite app_length in hk. cbn [length] in hk. lia.
          - intros z hz. apply hp. apply in_or_app. right. right. exact hz. }
        lia.
      + apply hu; auto. intros z hz. specialize (hp z hz). assert (z <> i) by (intros ->; auto). lia.
  Qed.

  Lemma upto_S i d : i < n -> upto i d -> upto (S i) (relax d i).
  Proof.
    intros hi hu. split.
    - intros x y hx hy. unfold relax. destruct (Z.min_spec (d x y) (d x i + d i y)) as [[_ ->]|[_ ->]].
      + apply hu; assumption.
      + destruct (proj1 hu x i hx hi) as (p & hp & ep). destruct (proj1 hu i y hi hy) as (q & hq & eq_).
        exists (p ++ i :: q). split.
        * intros z hz. apply in_app_or in hz. destruct hz as [hz|[<-|hz]]; auto.
        * rewrite walk_app, ep, eq_. reflexivity.
    - intros x y p hx hy hp. unfold relax. destruct (in_dec Nat.eq_dec i p) as [hin|hin].
      + (* the first visit of i *)
        assert (hf : exists p1 p2, p = p1 ++ i :: p2 /\ below i p1).
        { clear -hin hp. induction p as [|a p IH]; [destruct hin|].
          assert (ha : a < S i) by (apply hp; left; reflexivity).
          destruct (Nat.eq_dec a i) as [->|ne].
          - exists [], p. split; [reflexivity|intros z []].
          - destruct IH as (p1 & p2 & -> & h).
            + intros z hz. apply hp. right. exact hz.
            + destruct hin as [e|hin]; [contradiction|exact hin].
            + exists (a :: p1), p2. split; [reflexivity|]. intros z [<-|hz]; [lia|auto]. }
        destruct hf as (p1 & p2 & -> & h1). rewrite walk_app.
        assert (h2 : (d x i <= walk_len w x p1 i)%Z) by (apply hu; auto).
        assert (h3 : (d i y <= walk_len w i p2 y)%Z).
        { apply from_i; auto. intros z hz. apply hp. apply in_or_app. right. right. exact hz. }
        lia.
      + assert (h : (d x y <= walk_len w x p y)%Z).
        { apply hu; auto. intros z hz. specialize (hp z hz). assert (z <> i) by (intros ->; auto). lia. }
        lia.
  Qed.

  Lemma upto_n d : upto n d -> forall x y, x < n -> y < n -> shortest w n x y (d x y).
  Proof. intros hu x y hx hy. split; [apply hu; assumption|]. intros p hp. apply hu; assumption. Qed.

  (** shortest walks have the properties of a metric *)
  Lemma shortest_unique x y d d' : shortest w n x y d -> shortest w n x y d' -> d = d'.
  Proof. intros ((p & hp & <-) & h) ((q & hq & <-) & h'). specialize (h q hq). specialize (h' p hp). lia. Qed.

  Lemma shortest_diag x d : x < n -> shortest w n x x d -> d = 0%Z.
  Proof.
    intros hx ((p & hp & <-) & h). specialize (h [] (fun z (hz : In z []) => match hz with end)). cbn [walk_len] in h.
    rewrite Hdiag in h by exact hx. assert (h' : (0 <= walk_len w x p x)%Z) by (apply walk_pos; auto). lia.
  Qed.

  Lemma shortest_sym x y d : x < n -> y < n -> shortest w n x y d -> shortest w n y x d.
  Proof.
    intros hx hy ((p & hp & <-) & h). split.
    - exists (rev p). split; [intros z hz; apply hp; apply in_rev; exact hz|]. apply walk_rev; auto.
    - intros q hq. rewrite <- (walk_rev hy hx hq). apply h. intros z hz. apply hq. apply in_rev. exact hz.
  Qed.

  Lemma shortest_tri x y z d1 d2 d : y < n -> shortest w n x y d1 -> shortest w n y z d2 -> shortest w n x z d -> (d <= d1 + d2)%Z.
  Proof.
    intros hy ((p & hp & <-) & _) ((q & hq & <-) & _) (_ & h). rewrite <- walk_app. apply h.
    intros a ha. apply in_app_or in ha. destruct ha as [ha|[<-|ha]]; auto.
  Qed.

  Lemma shortest_pos x y d : x < n -> y < n -> shortest w n x y d -> (0 <= d <= w x y)%Z.
  Proof.
    intros hx hy ((p & hp & <-) & h). split; [apply walk_pos; auto|]. apply (h []). intros z [].
  Qed.
End Walks.

(** ** Floyd's algorithm *)
Section Floyd.
  Context {T : Type} `{HT : NumN T}.
  Variable val : T -> Z.
  Variable add : T -> T -> res T.
  (** entries in [0 .. B] can be added *)
  Variable B : Z.
  Hypothesis Hadd : forall a b, (0 <= val a <= B)%Z -> (0 <= val b <= B)%Z -> exists c, add a b = Ok c /\ val c = (val a + val b)%Z.
  Hypothesis Hlt : forall a b, nltb a b = (val a <? val b)%Z.

  Variable n : nat.

  (** symmetric, zero diagonal, in range *)
  Definition good (w : nat -> nat -> Z) : Prop :=
    (forall x, x < n -> w x x = 0%Z) /\ (forall x y, x < n -> y < n -> w x y = w y x) /\
    (forall x y, x < n -> y < n -> (0 <= w x y <= B)%Z).

  Lemma relax_good w i : i < n -> good w -> good (relax w i).
  Proof.
    intros hi (h1 & h2 & h3). unfold relax. repeat split.
    - intros x hx. rewrite h1 by exact hx. pose proof (h3 x i hx hi). pose proof (h3 i x hi hx). lia.
    - intros x y hx hy. rewrite (h2 x y), (h2 x i), (h2 i y) by assumption. lia.
    - pose proof (h3 x i H hi). pose proof (h3 i y hi H0). pose proof (h3 x y H H0). lia.
    - pose proof (h3 x y H H0). lia.
  Qed.

  (** in stage [i], the pairs up to row [x] and, in this row, up to column [y] are done *)
  Definition done (x y a b : nat) : Prop := Nat.min a b < x \/ (Nat.min a b = x /\ Nat.max a b < y).
  Definition st (w : nat -> nat -> Z) (i x y : nat) (mat : Array2 T) : Prop :=
    exists D, is_arr mat n D /\ forall a b, a < n -> b < n ->
      (done x y a b -> val (D a b) = relax w i a b) /\ (~ done x y a b -> val (D a b) = w a b).

  Lemma done_dec x y a b : {done x y a b} + {~ done x y a b}.
  Proof.
    unfold done. destruct (lt_dec (Nat.min a b) x); [left; auto|]. destruct (Nat.eq_dec (Nat.min a b) x).
    - destruct (lt_dec (Nat.max a b) y); [left; auto|right; lia].
    - right. lia.
  Qed.

  Lemma floyd_cell_ok w i x y mat : good w -> i < n -> x < y -> y < n -> st w i x y mat ->
    oks (floyd_cell add i x mat y) (st w i x (S y)).
  Proof.
    intros hg hi hxy hy (D & hD & hv). pose proof hg as (g1 & g2 & g3). assert (hx : x < n) by lia.
    assert (hci : forall a, a < n -> val (D a i) = w a i /\ val (D i a) = w i a).
    { intros a ha. pose proof (g3 a i ha hi). pose proof (g3 i a hi ha). pose proof (g1 i hi) as g1i. split.
      - destruct (done_dec x y a i) as [hd|hd]; [|apply hv; assumption].
        rewrite (proj1 (hv a i ha hi) hd). unfold relax. lia.
      - destruct (done_dec x y i a) as [hd|hd]; [|apply hv; assumption].
        rewrite (proj1 (hv i a hi ha) hd). unfold relax. lia. }
    unfold floyd_cell. rewrite (a_get_ok hD hx hi). cbn [bind]. rewrite (a_get_ok hD hi hy). cbn [bind].
    destruct (@Hadd (D x i) (D i y)) as (m & em & vm).
    { rewrite (proj1 (hci x hx)). auto. }
    { rewrite (proj2 (hci y hy)). auto. }
    rewrite em. cbn [bind]. rewrite (a_get_ok hD hx hy). cbn [bind].
    rewrite (proj1 (hci x hx)), (proj2 (hci y hy)) in vm.
    assert (hc : val (D x y) = w x y) by (apply hv; auto; unfold done; lia).
    assert (hdone : forall a b, a < n -> b < n -> done x (S y) a b -> done x y a b \/ (a = x /\ b = y) \/ (a = y /\ b = x)).
    { unfold done. intros a b _ _ h. lia. }
    rewrite Hlt, vm, hc. destruct (Z.ltb_spec (w x i + w i y) (w x y)) as [hlt|hge].
    - eapply oks_bind; [apply (a_set_ok m hD); assumption|]. intros mat1 h1.
      eapply oks_mono; [apply (a_set_ok m h1); assumption|]. intros mat2 h2.
      exists (fset (fset D y x m) x y m). split; [exact h2|]. intros a b ha hb. unfold fset.
      destruct (Nat.eqb_spec a x) as [->|nax], (Nat.eqb_spec b y) as [->|nby]; cbn [andb];
        try (destruct (Nat.eqb_spec a y) as [->|nay]); try (destruct (Nat.eqb_spec b x) as [->|nbx]); cbn [andb].
      all: try (destruct (Nat.eqb_spec x y) as [e|_]; [lia|]); try (destruct (Nat.eqb_spec x x) as [_|e]; [|lia]);
           try (destruct (Nat.eqb_spec y x) as [e|_]; [lia|]); try (destruct (Nat.eqb_spec y y) as [_|e]; [|lia]); cbn [andb].
      all: split; intros hd; try (exfalso; apply hd; unfold done; lia).
      all: try (rewrite vm; unfold relax; rewrite ?(g2 y x hy hx), ?(g2 y i hy hi), ?(g2 i x hi hx); lia).
      all: try (apply hv; [assumption|assumption|intros h; apply hd; unfold done in *; lia]).
      all: apply hv; [assumption|assumption|]; destruct (hdone _ _ ha hb hd) as [h|[h|h]]; [exact h|lia|lia].
    - cbn [oks]. exists D. split; [exact hD|]. intros a b ha hb. split; intros hd.
      + destruct (hdone _ _ ha hb hd) as [h|[[-> ->]|[-> ->]]].
        * apply hv; assumption.
        * rewrite hc. unfold relax. lia.
        * assert (e : val (D y x) = w y x) by (apply hv; auto; unfold done; lia).
          rewrite e. unfold relax. rewrite (g2 y x hy hx), (g2 y i hy hi), (g2 i x hi hx). lia.
      + apply hv; auto. intros h. apply hd. unfold done in *. lia.
  Qed.

  Lemma floyd_row_ok w i x mat : good w -> i < n -> x < n -> st w i x 0 mat ->
    oks (floyd_row add n i mat x) (st w i (S x) 0).
  Proof.
    intros hg hi hx hs. unfold floyd_row.
    assert (h0 : st w i x (x + 1) mat).
    { destruct hs as (D & hD & hv). exists D. split; [exact hD|]. intros a b ha hb.
      destruct (Nat.eq_dec a b) as [->|ne].
      - assert (e : relax w i b b = w b b).
        { destruct hg as (g1 & g2 & g3). unfold relax. rewrite g1 by exact hb. pose proof (g3 b i hb hi). pose proof (g3 i b hi hb). lia. }
        rewrite e. destruct (hv b b hb hb) as [h1 h2]. rewrite e in h1. destruct (done_dec x 0 b b); split; auto.
      - destruct (hv a b ha hb) as [h1 h2]. split; intros h; [apply h1|apply h2]; unfold done in *; lia. }
    eapply oks_mono.
    - apply foldM_oks with (I := fun pre m => st w i x (x + 1 + length pre) m).
      + rewrite Nat.add_0_r. exact h0.
      + intros pre y post m e hm.
        assert (hn : nth_error (seq (x + 1) (n - (x + 1))) (length pre) = Some y).
        { rewrite e, nth_error_app2, Nat.sub_diag; auto. }
        assert (hl : length pre < n - (x + 1)).
        { apply nth_error_lt in hn. rewrite seq_length in hn. exact hn. }
        rewrite nth_error_seq in hn by exact hl. injection hn as <-.
        rewrite app_length. cbn [length]. replace (x + 1 + (length pre + 1)) with (S (x + 1 + length pre)) by lia.
        apply floyd_cell_ok; auto; lia.
    - cbv beta. rewrite seq_length. intros m (D & hD & hv). exists D. split; [exact hD|]. intros a b ha hb.
      destruct (hv a b ha hb) as [h1 h2]. split; intros h; [apply h1|apply h2]; unfold done in *; lia.
  Qed.

  Definition vals_of (mat : Array2 T) (w : nat -> nat -> Z) : Prop :=
    exists D, is_arr mat n D /\ forall a b, a < n -> b < n -> val (D a b) = w a b.

  Lemma floyd_stage_ok w i mat : good w -> i < n -> vals_of mat w ->
    oks (floyd_stage add n mat i) (fun mat' => vals_of mat' (relax w i)).
  Proof.
    intros hg hi (D & hD & hv). unfold floyd_stage. eapply oks_mono.
    - apply foldM_seq with (I := fun x m => st w i x 0 m).
      + exists D. split; [exact hD|]. intros a b ha hb. split; [unfold done; lia|auto].
      + intros x m hx hm. apply floyd_row_ok; auto.
    - intros m (D' & hD' & hv'). exists D'. split; [exact hD'|]. intros a b ha hb. apply hv'; auto. unfold done. lia.
  Qed.

  Theorem floyd_ok w mat : good w -> vals_of mat w ->
    oks (all_pairs_shortest_path add mat) (fun mat' => exists d, vals_of mat' d /\ good d /\
      forall x y, x < n -> y < n -> shortest w n x y (d x y)).
  Proof.
    intros hg hm. pose proof hm as (D0 & (e1 & e2 & _) & _). unfold all_pairs_shortest_path.
    rewrite e1, e2, Nat.eqb_refl. cbn [assertb bind].
    pose proof hg as (g1 & g2 & g3).
    assert (hp : forall x y, x < n -> y < n -> (0 <= w x y)%Z) by (intros x y hx hy; apply g3; assumption).
    eapply oks_mono.
    - apply foldM_seq with (I := fun i m => exists d, vals_of m d /\ good d /\ upto w n i d).
      + exists w. split; [exact hm|]. split; [exact hg|]. apply upto_0.
      + intros i m hi (d & h1 & h2 & h3). eapply oks_mono; [apply (floyd_stage_ok h2 hi h1)|].
        intros m' h4. exists (relax d i). split; [exact h4|]. split; [apply relax_good; assumption|].
        apply upto_S; assumption.
    - intros m' (d & h1 & h2 & h3). exists d. split; [exact h1|]. split; [exact h2|].
      intros x y hx hy. apply upto_n; assumption.
  Qed.
End Floyd.

(** ** graphs *)

(** the matrix of a graph: [m] for the missing edges *)
Definition weights (E : list edge) (m : Z) (x y : nat) : Z :=
  if x =? y then 0%Z else match edge_len E x y with Some d => d | None => m end.

Lemma edge_len_app E e x y : edge_len (E ++ [e]) x y = if joins x y e then Some (snd e) else edge_len E x y.
Proof.
  unfold edge_len. rewrite rev_app_distr. cbn [rev app find]. destruct e as [[a b] d]. destruct (joins x y (a, b, d)); reflexivity.
Qed.

Lemma joins_sym x y e : joins x y e = joins y x e.
Proof. destruct e as [[a b] d]. unfold joins. apply Bool.orb_comm. Qed.

Lemma edge_len_sym E x y : edge_len E x y = edge_len E y x.
Proof.
  unfold edge_len. assert (h : forall l, find (joins x y) l = find (joins y x) l).
  { induction l as [|e l IH]; cbn [find]; [reflexivity|]. rewrite (joins_sym x y e), IH. reflexivity. }
  rewrite h. reflexivity.
Qed.

Lemma joins_spec x y a b d : joins x y (a, b, d) = true -> (a = x /\ b = y) \/ (a = y /\ b = x).
Proof.
  unfold joins. intros h. apply Bool.orb_true_iff in h. destruct h as [h|h]; apply andb_prop in h; destruct h as [h1 h2];
    apply Nat.eqb_eq in h1; apply Nat.eqb_eq in h2; auto.
Qed.

Lemma edge_len_in E x y d : edge_len E x y = Some d -> In (x, y, d) E \/ In (y, x, d) E.
Proof.
  unfold edge_len. destruct (find (joins x y) (rev E)) as [[[a b] d']|] eqn:e; [|discriminate]. intros h. injection h as ->.
  apply find_some in e. destruct e as [h1 h2]. apply in_rev in h1. apply joins_spec in h2.
  destruct h2 as [[-> ->]|[-> ->]]; auto.
Qed.

Section Graph.
  Variable n : nat.
  Variable m : Z.
  Variable E : list edge.
  Hypothesis Hg : simple_graph n m E.
  Hypothesis Hm : (0 <= m)%Z.
  Notation W := (weights E m).

  Lemma edge_props x y d : edge_len E x y = Some d -> x < n /\ y < n /\ x <> y /\ (0 <= d <= m)%Z.
  Proof.
    intros h. apply edge_len_in in h. destruct h as [h|h]; apply Hg in h; destruct h as (h1 & h2 & h3 & h4); auto.
  Qed.

  Lemma weights_edge x y d : edge_len E x y = Some d -> W x y = d.
  Proof.
    intros h. destruct (edge_props _ _ h) as (_ & _ & ne & _). unfold weights.
    destruct (Nat.eqb_spec x y) as [e|_]; [contradiction|]. rewrite h. reflexivity.
  Qed.
  Lemma weights_diag x : W x x = 0%Z.
  Proof. unfold weights. rewrite Nat.eqb_refl. reflexivity. Qed.
  Lemma weights_sym x y : W x y = W y x.
  Proof. unfold weights. rewrite (Nat.eqb_sym x y), (edge_len_sym E x y). reflexivity. Qed.
  Lemma weights_range x y : (0 <= W x y <= m)%Z.
  Proof.
    unfold weights. destruct (x =? y); [lia|]. destruct (edge_len E x y) as [d|] eqn:e; [|lia].
    apply (edge_props _ _ e).
  Qed.

  (** walks along edges *)
  Lemma graph_walk x p y d : is_walk E x p y d -> walk_len W x p y = d /\ below n p.
  Proof.
    revert x d. induction p as [|z p IH]; intros x d h; cbn [is_walk walk_len] in *.
    - split; [apply weights_edge; exact h|intros a []].
    - destruct h as (d1 & d2 & h1 & h2 & ->). destruct (IH z d2 h2) as [e hb]. rewrite (weights_edge _ _ h1), e.
      split; [reflexivity|]. intros a [<-|ha]; [|auto]. apply (edge_props _ _ h1).
  Qed.

  (** any walk is as long as one along edges, or as the value of a missing edge *)
  Lemma walk_graph x p y : (m <= walk_len W x p y)%Z \/ x = y \/ exists q d, is_walk E x q y d /\ (d <= walk_len W x p y)%Z.
  Proof.
    assert (hpos : forall p x, (0 <= walk_len W x p y)%Z).
    { induction p0 as [|z q IHq]; intros x0; cbn [walk_len]; [apply weights_range|].
      pose proof (weights_range x0 z). pose proof (IHq z). lia. }
    revert x. induction p as [|z p IH]; intros x; cbn [walk_len].
    - unfold weights. destruct (Nat.eqb_spec x y) as [->|ne]; [right; left; reflexivity|].
      destruct (edge_len E x y) as [d|] eqn:e; [|left; lia]. right. right. exists [], d. split; [exact e|lia].
    - pose proof (hpos p z) as hz. pose proof (weights_range x z) as hr. destruct (IH z) as [h|[->|(q & d & h1 & h2)]].
      + left. lia.
      + unfold weights at 1 3. destruct (Nat.eqb_spec x y) as [->|ne]; [right; left; reflexivity|].
        destruct (edge_len E x y) as [d|] eqn:e; [|left; lia]. right. right. exists [], d. split; [exact e|lia].
      + unfold weights at 1 3. destruct (Nat.eqb_spec x z) as [->|ne]; [right; right; exists q, d; split; [exact h1|lia]|].
        destruct (edge_len E x z) as [d'|] eqn:e; [|left; lia].
        right. right. exists (z :: q), (d' + d)%Z. cbn [is_walk]. split; [exists d', d; auto|lia].
  Qed.

  Lemma shortest_graph x y d g : x < n -> y < n -> shortest W n x y d -> graph_dist E x y g -> d = Z.min g m.
  Proof.
    intros hx hy hd [[-> ->]|(ne & (p & hp) & hmin)].
    - rewrite Z.min_l by lia. apply (shortest_diag (w := W) (n := n)) with (x := y); auto.
      + intros a b _ _. apply weights_range. + intros a _. apply weights_diag.
    - destruct hd as ((q & hq & <-) & hd). destruct (graph_walk _ _ _ _ hp) as [e hb]. pose proof (hd p hb) as h1. rewrite e in h1.
      assert (h2 : (walk_len W x q y <= m)%Z).
      { pose proof (hd [] (fun z (hz : In z []) => match hz with end)) as h. cbn [walk_len] in h. pose proof (weights_range x y). lia. }
      destruct (walk_graph x q y) as [h|[h|(q' & d' & h3 & h4)]]; [lia|contradiction|]. specialize (hmin _ _ h3). lia.
  Qed.

  Lemma shortest_apart x y d : x < n -> y < n -> x <> y -> shortest W n x y d -> (forall p g, ~ is_walk E x p y g) -> d = m.
  Proof.
    intros hx hy ne ((q & hq & <-) & hd) hno.
    pose proof (hd [] (fun z (hz : In z []) => match hz with end)) as h. cbn [walk_len] in h. pose proof (weights_range x y).
    destruct (walk_graph x q y) as [h1|[h1|(q' & d' & h3 & _)]]; [lia|contradiction|destruct (hno _ _ h3)].
  Qed.
End Graph.

(** ** the file *)
Section Reading.
  Context {T : Type} `{HT : NumN T}.
  Variable val : T -> Z.
  Variable add : T -> T -> res T.
  Variable Tok : Type.
  Variable parse_usize : Tok -> option N.
  Variable parse_T : Tok -> option T.
  Variable checked : bool.
  Variable n : nat.
  Variable default : T.

  (** a line which is read as the edge: objects are counted from 1, further tokens are ignored *)
  Definition line_of (ln : list Tok) (e : edge) : Prop :=
    exists t1 t2 t3 rest d, ln = t1 :: t2 :: t3 :: rest /\ parse_usize t1 = Some (N.of_nat (S (fst (fst e)))) /\
      parse_usize t2 = Some (N.of_nat (S (snd (fst e)))) /\ parse_T t3 = Some d /\ val d = snd e.

  Lemma set_edge_ok (mat : Array2 T) D a b d : is_arr mat n D -> a < n -> b < n ->
    oks (set_edge checked mat (N.of_nat (S a)) (N.of_nat (S b)) d) (fun mat' => is_arr mat' n (fset D a b d)).
  Proof.
    intros hD ha hb. pose proof hD as (e1 & e2 & _). unfold set_edge, usize_sub.
    assert (h1 : (1 <=? N.of_nat (S a))%N = true) by (apply N.leb_le; lia).
    assert (h2 : (1 <=? N.of_nat (S b))%N = true) by (apply N.leb_le; lia).
    rewrite h1, h2. cbn [bind]. rewrite e1, e2.
    assert (h3 : (N.of_nat (S a) - 1 <? N.of_nat n)%N = true) by (apply N.ltb_lt; lia).
    assert (h4 : (N.of_nat (S b) - 1 <? N.of_nat n)%N = true) by (apply N.ltb_lt; lia).
    rewrite h3, h4. cbn [andb]. replace (N.to_nat (N.of_nat (S a) - 1)) with a by lia.
    replace (N.to_nat (N.of_nat (S b) - 1)) with b by lia. apply a_set_ok; assumption.
  Qed.

  Definition reads (E : list edge) (mat : Array2 T) : Prop :=
    exists D, is_arr mat n D /\ forall x y, x < n -> y < n -> x <> y -> val (D x y) = weights E (val default) x y.

  Lemma read_edge_ok E mat ln a b d : reads E mat -> line_of ln (a, b, d) -> a < n -> b < n -> a <> b ->
    oks (read_edge parse_usize parse_T checked mat ln) (fun o => exists mat', o = Some mat' /\ reads (E ++ [(a, b, d)]) mat').
  Proof.
    intros (D & hD & hv) (t1 & t2 & t3 & rest & dT & -> & h1 & h2 & h3 & h4) ha hb hne. cbn [fst snd] in *. subst d.
    unfold read_edge. cbn [next_tok bind]. rewrite h1. cbn [next_tok bind]. rewrite h2.
    assert (hn : (N.of_nat (S a) =? N.of_nat (S b))%N = false) by (apply N.eqb_neq; lia).
    rewrite hn. cbn [negb assertb bind next_tok]. rewrite h3.
    eapply oks_bind; [apply (set_edge_ok dT hD ha hb)|]. intros mat1 hm1.
    eapply oks_bind; [apply (set_edge_ok dT hm1 hb ha)|]. intros mat2 hm2. cbn [oks]. exists mat2. split; [reflexivity|].
    exists (fset (fset D a b dT) b a dT). split; [exact hm2|]. intros x y hx hy hxy. specialize (hv x y hx hy hxy).
    unfold weights in *. destruct (Nat.eqb_spec x y) as [e|_]; [contradiction|]. rewrite edge_len_app. unfold joins, fset.
    cbn [snd]. rewrite (Nat.eqb_sym a x), (Nat.eqb_sym b y), (Nat.eqb_sym a y), (Nat.eqb_sym b x).
    destruct ((x =? b) && (y =? a)) eqn:e1.
    - apply andb_prop in e1. destruct e1 as [e1 e2]. rewrite e1, e2. cbn [andb]. rewrite Bool.orb_true_r. reflexivity.
    - destruct ((x =? a) && (y =? b)) eqn:e2; cbn [orb]; [reflexivity|].
      rewrite Bool.andb_comm in e1. rewrite e1. exact hv.
  Qed.

  Lemma read_edges_ok E0 E lines mat m : reads E0 mat -> Forall2 line_of lines E -> simple_graph n m E ->
    oks (read_edges parse_usize parse_T checked lines mat) (fun o => exists mat', o = Some mat' /\ reads (E0 ++ E) mat').
  Proof.
    intros h0 hl. revert E0 mat h0. induction hl as [|ln [[a b] d] lines E hln hl IH]; intros E0 mat h0 hs; cbn [read_edges].
    - cbn [oks]. exists mat. rewrite app_nil_r. auto.
    - destruct (hs a b d (or_introl eq_refl)) as (ha & hb & hab & _).
      eapply oks_bind; [apply (read_edge_ok h0 hln ha hb hab)|]. intros o (mat' & -> & hr). cbv beta iota.
      eapply oks_mono; [apply (IH _ _ hr); intros a' b' d' hin; apply hs; right; exact hin|].
      intros o (mat2 & -> & h2). exists mat2. split; [reflexivity|]. rewrite <- app_assoc in h2. exact h2.
  Qed.

  Hypothesis Hzero : val nzero = 0%Z.

  Lemma zero_diagonal_ok E mat : reads E mat -> oks (zero_diagonal n mat) (fun mat' => vals_of val n mat' (weights E (val default))).
  Proof.
    intros h. unfold zero_diagonal. eapply oks_mono.
    - apply foldM_seq with (I := fun i mat => exists D, is_arr mat n D /\ forall x y, x < n -> y < n ->
        (x <> y \/ x < i) -> val (D x y) = weights E (val default) x y).
      + destruct h as (D & hD & hv). exists D. split; [exact hD|]. intros x y hx hy [hne|hlt]; [auto|lia].
      + intros i mat' hi (D & hD & hv). eapply oks_mono; [apply (a_set_ok nzero hD hi hi)|]. intros mat2 h2.
        exists (fset D i i nzero). split; [exact h2|]. intros x y hx hy hc. unfold fset.
        destruct (Nat.eqb_spec x i) as [->|nx]; [destruct (Nat.eqb_spec y i) as [->|ny]|]; cbn [andb].
        * rewrite Hzero. unfold weights. rewrite Nat.eqb_refl. reflexivity.
        * apply hv; auto.
        * apply hv; auto. destruct hc as [hc|hc]; [left; exact hc|right; lia].
    - intros mat' (D & hD & hv). exists D. split; [exact hD|]. intros x y hx hy. apply hv; auto.
  Qed.

  (** the part of [read_orlib] before Floyd's algorithm *)
  Lemma read_orlib_matrix E m first lines p k : parse_all parse_usize first = Some [N.of_nat n; p; k] ->
    Forall2 line_of lines E -> simple_graph n m E ->
    exists mat, vals_of val n mat (weights E (val default)) /\
      read_orlib add parse_usize parse_T checked first lines default =
      (mat' <- all_pairs_shortest_path add mat ;; Ok (Some (mat', N.to_nat k))).
  Proof.
    intros hf hl hs. unfold read_orlib. rewrite hf. cbn [length Nat.eqb assertb bind idx nth_error]. rewrite Nnat.Nat2N.id.
    assert (h0 : reads [] (mkArray2 n n (repeat default (n * n)))).
    { exists (fun _ _ => default). split; [apply is_arr_repeat|]. intros x y hx hy hne. unfold weights.
      destruct (Nat.eqb_spec x y) as [e|_]; [contradiction|reflexivity]. }
    destruct (oks_inv _ _ (read_edges_ok h0 hl hs)) as (o & -> & (mat & -> & hr)). cbn [bind app] in *.
    destruct (oks_inv _ _ (zero_diagonal_ok hr)) as (mat' & -> & hr'). cbn [bind]. exists mat'. split; [exact hr'|reflexivity].
  Qed.
End Reading.

(** ** overflow *)

(** runs which return, or stop because of an overflow *)
Definition ovf {A} (x : res A) (Q : A -> Prop) : Prop := x = Panic P_overflow \/ oks x Q.

Lemma foldM_ovf A S (f : S -> A -> res S) l (I : S -> Prop) s :
  I s -> (forall s a, In a l -> I s -> ovf (f s a) I) -> ovf (foldM f l s) I.
Proof.
  revert s. induction l as [|a l IH]; intros s hs h; cbn [foldM]; [right; exact hs|].
  destruct (h s a (or_introl eq_refl) hs) as [->|hk]; [left; reflexivity|].
  destruct (oks_inv _ _ hk) as (s' & -> & hs'). cbn [bind]. apply IH; auto. intros s0 a0 h0. apply h. right. exact h0.
Qed.

Lemma foldM_stops A S (f : S -> A -> res S) l (I : S -> Prop) a s :
  I s -> (forall s a, In a l -> I s -> ovf (f s a) I) -> In a l -> (forall s, I s -> f s a = Panic P_overflow) ->
  foldM f l s = Panic P_overflow.
Proof.
  intros hs h hin ha. apply in_split in hin. destruct hin as (l1 & l2 & ->). rewrite foldM_app.
  destruct (@foldM_ovf _ _ f l1 I s hs) as [->|hk].
  - intros s0 a0 h0. apply h. apply in_or_app. left. exact h0.
  - reflexivity.
  - destruct (oks_inv _ _ hk) as (s' & -> & hs'). cbn [bind foldM]. rewrite (ha s' hs'). reflexivity.
Qed.

(** a property which stays once it holds *)
Lemma foldM_stays A S (f : S -> A -> res S) l (I G : S -> Prop) a s :
  I s -> (forall s a, In a l -> I s -> oks (f s a) (fun s' => I s' /\ (G s -> G s'))) -> In a l ->
  (forall s, I s -> oks (f s a) G) -> oks (foldM f l s) (fun s' => I s' /\ G s').
Proof.
  intros hs h hin ha. apply in_split in hin. destruct hin as (l1 & l2 & ->). rewrite foldM_app.
  eapply oks_bind; [apply foldM_inv with (I := I); [exact hs|]|].
  { intros a0 s0 h0 hi. eapply oks_mono; [apply h; [apply in_or_app; left; exact h0|exact hi]|]. intros s' [h' _]. exact h'. }
  intros s1 h1. cbn [foldM].
  assert (h2 : oks (f s1 a) (fun s' => I s' /\ G s')).
  { apply oks_and; [|apply ha; exact h1].
    eapply oks_mono; [apply h; [apply in_or_app; right; left; reflexivity|exact h1]|]. intros s' [h' _]. exact h'. }
  eapply oks_bind; [exact h2|]. intros s2 h3.
  apply foldM_inv with (I := fun s => I s /\ G s); [exact h3|]. intros a0 s0 h0 [hi hg].
  eapply oks_mono; [apply h; [apply in_or_app; right; right; exact h0|exact hi]|]. intros s' [h' h'']. auto.
Qed.

Section Overflow.
  Context {T : Type} `{HT : NumN T}.
  Variable val : T -> Z.
  Hypothesis Hlt : forall a b, nltb a b = (val a <? val b)%Z.
  Variable top : Z.
  Variable n : nat.
  Variable w : nat -> nat -> Z.
  Hypothesis Hdiag : forall x, x < n -> w x x = 0%Z.
  Hypothesis Hrange : forall x y, x < n -> y < n -> x <> y -> (1 <= w x y <= top)%Z.
  (** two objects after the first one, and the edge between the first object and one of them is missing *)
  Variables x y : nat.
  Hypothesis Hx : 0 < x.
  Hypothesis Hxy : x < y.
  Hypothesis Hy : y < n.
  Hypothesis Hmiss : w x 0 = top \/ w 0 y = top.

  (** the first row and the first column are as at the beginning *)
  Definition edge0 (mat : Array2 T) : Prop :=
    exists D, is_arr mat n D /\ forall a, a < n -> val (D a 0) = w a 0 /\ val (D 0 a) = w 0 a.

  Section Checked.
    Variable add : T -> T -> res T.
    Hypothesis Hadd : forall a b, (0 <= val a <= top)%Z -> (0 <= val b <= top)%Z ->
      (exists c, add a b = Ok c /\ val c = (val a + val b)%Z) \/ add a b = Panic P_overflow.
    Hypothesis Hover : forall a b, (top < val a + val b)%Z -> add a b = Panic P_overflow.

    Lemma edge0_range a (D : nat -> nat -> T) : a < n -> (val (D a 0) = w a 0 /\ val (D 0 a) = w 0 a) ->
      (0 <= val (D a 0%nat) <= top)%Z /\ (0 <= val (D 0%nat a) <= top)%Z.
    Proof.
      intros ha [-> ->]. assert (h0 : 0 < n) by lia. destruct (Nat.eq_dec a 0) as [->|ne].
      - rewrite Hdiag by exact h0. assert (h : x <> y) by lia. pose proof (@Hrange x y ltac:(lia) Hy h). lia.
      - pose proof (@Hrange a 0 ha h0 ne). pose proof (@Hrange 0 a h0 ha ltac:(lia)). lia.
    Qed.

    Lemma cell0 a b mat : a < b -> b < n -> edge0 mat -> ovf (floyd_cell add 0 a mat b) edge0.
    Proof.
      intros hab hb (D & hD & hv). assert (ha : a < n) by lia. assert (h0 : 0 < n) by lia. unfold floyd_cell.
      rewrite (a_get_ok hD ha h0). cbn [bind]. rewrite (a_get_ok hD h0 hb). cbn [bind].
      destruct (@Hadd (D a 0) (D 0 b)) as [(c & -> & vc)| -> ].
      - apply edge0_range; auto. - apply edge0_range; auto.
      - cbn [bind]. rewrite (a_get_ok hD ha hb). cbn [bind]. rewrite Hlt, vc.
        destruct (Nat.eq_dec a 0) as [->|ne].
        + right. rewrite (proj1 (hv 0 h0)), Hdiag by exact h0. rewrite Z.add_0_l, Z.ltb_irrefl. exists D. auto.
        + right. destruct (val (D a 0%nat) + val (D 0%nat b) <? val (D a b))%Z; [|exists D; auto].
          eapply oks_bind; [apply (a_set_ok c hD hb ha)|]. intros m1 h1.
          eapply oks_mono; [apply (a_set_ok c h1 ha hb)|]. intros m2 h2. exists (fset (fset D b a c) a b c). split; [exact h2|].
          intros z hz. unfold fset. destruct (Nat.eqb_spec 0 b); [lia|]. destruct (Nat.eqb_spec 0 a); [lia|].
          rewrite !Bool.andb_false_r. cbn [andb]. apply hv. exact hz.
      - left. reflexivity.
    Qed.

    Lemma in_row a b : In b (seq (a + 1) (n - (a + 1))) -> a < b /\ b < n.
    Proof. intros h. apply in_seq in h. lia. Qed.

    Lemma row0 a mat : edge0 mat -> ovf (floyd_row add n 0 mat a) edge0.
    Proof.
      intros h. unfold floyd_row. apply foldM_ovf; [exact h|]. intros s b hb hs. apply in_row in hb. apply cell0; tauto.
    Qed.

    Lemma overflow_stops mat : vals_of val n mat w -> all_pairs_shortest_path add mat = Panic P_overflow.
    Proof.
      intros (D & hD & hv). pose proof hD as (e1 & e2 & _). unfold all_pairs_shortest_path.
      rewrite e1, e2, Nat.eqb_refl. cbn [assertb bind]. destruct n as [|n'] eqn:en; [lia|]. rewrite <- en in *.
      replace (seq 0 n) with (0 :: seq 1 n') by (rewrite en; reflexivity). cbn [foldM].
      assert (h : floyd_stage add n mat 0 = Panic P_overflow).
      { unfold floyd_stage. apply foldM_stops with (I := edge0) (a := x).
        - exists D. split; [exact hD|]. intros a ha. split; apply hv; auto; lia.
        - intros s a _ hs. apply row0. exact hs.
        - apply in_seq. lia.
        - intros s hs. unfold floyd_row. apply foldM_stops with (I := edge0) (a := y); [exact hs| |apply in_seq; lia|].
          + intros s' b hb hs'. apply in_row in hb. apply cell0; tauto.
          + intros s' (D' & hD' & hv'). unfold floyd_cell. assert (hx : x < n) by lia. assert (h0 : 0 < n) by lia.
            rewrite (a_get_ok hD' hx h0). cbn [bind]. rewrite (a_get_ok hD' h0 Hy). cbn [bind].
            rewrite Hover; [reflexivity|]. rewrite (proj1 (hv' x hx)), (proj2 (hv' y Hy)).
            pose proof (@Hrange x 0 hx h0 ltac:(lia)). pose proof (@Hrange 0 y h0 Hy ltac:(lia)). destruct Hmiss; lia. }
      rewrite h. reflexivity.
    Qed.
  End Checked.

  Section Wrapping.
    Variable add : T -> T -> res T.
    (** the addition always returns; it is exact up to [top] and negative above *)
    Hypothesis Hok : forall a b, exists c, add a b = Ok c.
    Hypothesis Hzero : forall a b c, add a b = Ok c -> val a = 0%Z -> (0 <= val b <= top)%Z -> val c = val b.
    Hypothesis Hneg : forall a b c, add a b = Ok c -> (0 <= val a <= top)%Z -> (0 <= val b <= top)%Z ->
      (top < val a + val b)%Z -> (val c < 0)%Z.

    Definition square (mat : Array2 T) : Prop := exists D, is_arr mat n D.
    Definition negative (mat : Array2 T) : Prop := exists D, is_arr mat n D /\ (val (D x y) < 0)%Z.

    Lemma is_arr_unique (mat : Array2 T) D D' a b : is_arr mat n D -> is_arr mat n D' -> a < n -> b < n -> D a b = D' a b.
    Proof.
      intros (_ & _ & h) (_ & _ & h') ha hb. specialize (h a b ha hb). rewrite (h' a b ha hb) in h. congruence.
    Qed.

    (** entries only get smaller *)
    Lemma cell_less i a b mat : i < n -> a < b -> b < n -> square mat ->
      oks (floyd_cell add i a mat b) (fun mat' => square mat' /\ (negative mat -> negative mat')).
    Proof.
      intros hi hab hb (D & hD). assert (ha : a < n) by lia. unfold floyd_cell.
      rewrite (a_get_ok hD ha hi). cbn [bind]. rewrite (a_get_ok hD hi hb). cbn [bind].
      destruct (Hok (D a i) (D i b)) as (c & ->). cbn [bind]. rewrite (a_get_ok hD ha hb). cbn [bind]. rewrite Hlt.
      destruct (Z.ltb_spec (val c) (val (D a b))) as [hlt|hge].
      - eapply oks_bind; [apply (a_set_ok c hD hb ha)|]. intros m1 h1.
        eapply oks_mono; [apply (a_set_ok c h1 ha hb)|]. intros m2 h2. split; [eexists; exact h2|].
        intros (D' & hD' & hn). exists (fset (fset D b a c) a b c). split; [exact h2|].
        rewrite (is_arr_unique hD' hD (a := x) (b := y)) in hn by lia. unfold fset.
        destruct (Nat.eqb_spec x a) as [<-|na], (Nat.eqb_spec y b) as [<-|nb]; cbn [andb]; try lia.
        + destruct (Nat.eqb_spec x b); [lia|]. exact hn.
        + destruct (Nat.eqb_spec y a); [lia|]. rewrite Bool.andb_false_r. exact hn.
        + destruct (Nat.eqb_spec x b); [|exact hn]. destruct (Nat.eqb_spec y a); [lia|]. exact hn.
      - split; [exists D; exact hD|auto].
    Qed.

    Lemma row_less i a mat : i < n -> square mat ->
      oks (floyd_row add n i mat a) (fun mat' => square mat' /\ (negative mat -> negative mat')).
    Proof.
      intros hi hs. unfold floyd_row. apply foldM_inv with (I := fun m => square m /\ (negative mat -> negative m)); [auto|].
      intros b s hb [h1 h2]. apply in_row in hb. eapply oks_mono; [apply cell_less; [exact hi|apply hb|apply hb|exact h1]|].
      intros s' [h3 h4]. auto.
    Qed.

    Lemma cell0_wrap a b mat : a < b -> b < n -> edge0 mat ->
      oks (floyd_cell add 0 a mat b) (fun mat' => edge0 mat' /\ (a = x -> b = y -> negative mat')).
    Proof.
      intros hab hb (D & hD & hv). assert (ha : a < n) by lia. assert (h0 : 0 < n) by lia. unfold floyd_cell.
      rewrite (a_get_ok hD ha h0). cbn [bind]. rewrite (a_get_ok hD h0 hb). cbn [bind].
      destruct (Hok (D a 0) (D 0 b)) as (c & ec). rewrite ec. cbn [bind]. rewrite (a_get_ok hD ha hb). cbn [bind]. rewrite Hlt.
      destruct (edge0_range D ha (hv a ha)) as [ra _]. destruct (edge0_range D hb (hv b hb)) as [_ rb].
      assert (hc : a = x -> b = y -> (val c < 0)%Z).
      { intros -> ->. apply (Hneg ec); auto. rewrite (proj1 (hv x ha)), (proj2 (hv y hb)).
        pose proof (@Hrange x 0 ha h0 ltac:(lia)). pose proof (@Hrange 0 y h0 Hy ltac:(lia)). destruct Hmiss; lia. }
      destruct (Nat.eq_dec a 0) as [->|ne].
      - rewrite (Hzero ec); [|rewrite (proj1 (hv 0 h0)); apply Hdiag; exact h0|exact rb].
        rewrite Z.ltb_irrefl. cbn [oks]. split; [exists D; auto|lia].
      - destruct (Z.ltb_spec (val c) (val (D a b))) as [hlt|hge].
        + eapply oks_bind; [apply (a_set_ok c hD hb ha)|]. intros m1 h1.
          eapply oks_mono; [apply (a_set_ok c h1 ha hb)|]. intros m2 h2. split.
          * exists (fset (fset D b a c) a b c). split; [exact h2|].
            intros z hz. unfold fset. destruct (Nat.eqb_spec 0 b); [lia|]. destruct (Nat.eqb_spec 0 a); [lia|].
            rewrite !Bool.andb_false_r. cbn [andb]. apply hv. exact hz.
          * intros ex ey. exists (fset (fset D b a c) a b c). split; [exact h2|]. unfold fset. subst a b.
            rewrite !Nat.eqb_refl. cbn [andb]. auto.
        + cbn [oks]. split; [exists D; auto|]. intros -> ->. exists D. split; [exact hD|]. specialize (hc eq_refl eq_refl). lia.
    Qed.

    Lemma overflow_negative mat : vals_of val n mat w ->
      oks (all_pairs_shortest_path add mat) negative.
    Proof.
      intros (D & hD & hv). pose proof hD as (e1 & e2 & _). unfold all_pairs_shortest_path.
      rewrite e1, e2, Nat.eqb_refl. cbn [assertb bind]. destruct n as [|n'] eqn:en; [lia|]. rewrite <- en in *.
      replace (seq 0 n) with (0 :: seq 1 n') by (rewrite en; reflexivity). cbn [foldM].
      assert (he : edge0 mat). { exists D. split; [exact hD|]. intros a ha. split; apply hv; auto; lia. }
      assert (hsq : forall m, edge0 m -> square m). { intros m (D' & h & _). exists D'. exact h. }
      assert (hneg : forall m, negative m -> square m). { intros m (D' & h & _). exists D'. exact h. }
      assert (hrow : forall a m, edge0 m -> oks (floyd_row add n 0 m a) (fun m' => edge0 m' /\ (negative m -> negative m'))).
      { intros a m hm. apply oks_and.
        - unfold floyd_row. apply foldM_inv; [exact hm|]. intros b s hb hs. apply in_row in hb.
          eapply oks_mono; [apply cell0_wrap; [apply hb|apply hb|exact hs]|]. intros s' [h _]. exact h.
        - eapply oks_mono; [apply row_less; [lia|apply hsq; exact hm]|]. intros m' [_ h]. exact h. }
      assert (h : oks (floyd_stage add n mat 0) negative).
      { unfold floyd_stage. eapply oks_mono; [apply foldM_stays with (I := edge0) (G := negative) (a := x)|].
        - exact he.
        - intros s a _ hs. apply hrow. exact hs.
        - apply in_seq. lia.
        - intros s hs. unfold floyd_row. eapply oks_mono; [apply foldM_stays with (I := edge0) (G := negative) (a := y)|].
          + exact hs.
          + intros s' b hb hs'. apply in_row in hb. apply oks_and.
            * eapply oks_mono; [apply cell0_wrap; [apply hb|apply hb|exact hs']|]. intros m' [h _]. exact h.
            * eapply oks_mono; [apply cell_less; [lia|apply hb|apply hb|apply hsq; exact hs']|]. intros m' [_ h]. exact h.
          + apply in_seq. lia.
          + intros s' hs'. eapply oks_mono; [apply cell0_wrap; [exact Hxy|exact Hy|exact hs']|]. intros m' [_ h]. auto.
          + intros m' [_ h]. exact h.
        - intros m' [_ h]. exact h. }
      eapply oks_bind; [exact h|]. intros m1 h1.
      apply foldM_inv; [exact h1|]. intros i s hi hs. apply in_seq in hi. unfold floyd_stage.
      apply foldM_inv; [exact hs|]. intros a s' ha hs'.
      eapply oks_mono; [apply row_less; [lia|apply hneg; exact hs']|]. intros m' [_ h']. auto.
    Qed.
  End Wrapping.
End Overflow.
