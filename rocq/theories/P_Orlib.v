(** P_Orlib.v -- property C73: the example program examples/orlib-kmedoids.rs.  A graph is read from a file, the
    distances are computed by Floyd's algorithm and clustered by FasterPAM with [i64] losses.
    Every theorem is followed by a concrete input which meets its hypotheses. *)
From Coq Require Import ZArith QArith Lia Permutation.
From Verif Require Import Base Num M_Mat M_Util M_Fasterpam M_Orlib Inst Hoare Spec SpecGraph Laws ParFacts Bounded BoundedMain
  OrlibFacts Ex P_Fasterpam P_Pam P_Bounded P_Approx P_Types.
Open Scope nat_scope.

(** [a + b] on [w]-bit integers: builds with overflow checks panic, others wrap around *)
Definition int_add {w : Z} (checked : bool) (a b : mint w) : res (mint w) :=
  let s := (ival a + ival b)%Z in
  if ((- 2 ^ (w - 1) <=? s) && (s <=? imax w))%Z then Ok (MInt s)
  else if checked then Panic P_overflow else Ok (MInt (wrap w s)).

Lemma int_add_ok w checked (a b : mint w) : (2 * ival a <= imax w)%Z -> (2 * ival b <= imax w)%Z -> (0 <= ival a)%Z -> (0 <= ival b)%Z ->
  int_add checked a b = Ok (MInt (ival a + ival b)).
Proof.
  intros h1 h2 h3 h4. unfold int_add. cbv zeta.
  assert (e1 : (- 2 ^ (w - 1) <=? ival a + ival b)%Z = true).
  { apply Z.leb_le. pose proof (Z.pow_nonneg 2 (w - 1) ltac:(lia)). lia. }
  assert (e2 : (ival a + ival b <=? imax w)%Z = true) by (apply Z.leb_le; lia).
  rewrite e1, e2. reflexivity.
Qed.

(** the entries of a matrix as rational numbers *)
Definition int_vals {w} (D : nat -> nat -> mint w) : diss := fun x y => inject_Z (ival (D x y)).

(** C73.  Floyd's algorithm on machine integers, with or without overflow checks: if twice the largest entry is in
    range, the result contains the lengths of the shortest walks. *)
Theorem C73_floyd (w : Z) (checked : bool) (mat : Array2 (mint w)) n D (m : Z) :
  is_matrix (mat_of_array2 mat) n D -> (forall x, x < n -> ival (D x x) = 0%Z) ->
  (forall x y, x < n -> y < n -> ival (D x y) = ival (D y x)) ->
  (forall x y, x < n -> y < n -> (0 <= ival (D x y) <= m)%Z) -> (2 * m <= imax w)%Z ->
  exists mat' D', all_pairs_shortest_path (int_add checked) mat = Ok mat' /\ is_matrix (mat_of_array2 mat') n D' /\
    (forall x y, x < n -> y < n -> shortest (fun a b => ival (D a b)) n x y (ival (D' x y))) /\
    metric n (int_vals D') /\ (forall x y, x < n -> y < n -> (0 <= ival (D' x y) <= ival (D x y))%Z).
Proof.
  intros hM h1 h2 h3 hm. set (W := fun a b => ival (D a b)).
  assert (hg : good m n W) by (split; [exact h1|split; [exact h2|exact h3]]).
  assert (hv : vals_of ival n mat W) by (exists D; split; [apply is_arr_matrix; exact hM|reflexivity]).
  assert (ha : forall a b : mint w, (0 <= ival a <= m)%Z -> (0 <= ival b <= m)%Z ->
    exists c, int_add checked a b = Ok c /\ ival c = (ival a + ival b)%Z).
  { intros a b [a1 a2] [b1 b2]. exists (MInt (ival a + ival b)). split; [apply int_add_ok; lia|reflexivity]. }
  destruct (oks_inv _ _ (@floyd_ok (mint w) (NumN_mint w) ival (int_add checked) m ha (fun a b => eq_refl) n W mat hg hv))
    as (mat' & e & d & (D' & hD' & hd) & g & hs).
  assert (hs' : forall x y, x < n -> y < n -> shortest W n x y (ival (D' x y))).
  { intros x y hx hy. rewrite hd by assumption. apply hs; assumption. }
  assert (hpos : forall x y, x < n -> y < n -> (0 <= W x y)%Z) by (intros x y hx hy; apply h3; assumption).
  exists mat', D'. split; [exact e|]. split; [apply is_arr_matrix; exact hD'|]. split; [exact hs'|]. split.
  - split; [split|split].
    + intros i hi. unfold int_vals. rewrite (shortest_diag (w := W) (n := n) hpos h1 hi (hs' i i hi hi)). reflexivity.
    + intros i j hi hj. unfold int_vals. change 0%Q with (inject_Z 0). rewrite <- Zle_Qle.
      apply (shortest_pos (w := W) (n := n) hpos hi hj (hs' i j hi hj)).
    + intros i j hi hj. unfold int_vals.
      rewrite (shortest_unique (w := W) (n := n) (x := i) (y := j) (d := ival (D' i j)) (d' := ival (D' j i))); [reflexivity|auto|].
      apply shortest_sym; auto.
    + intros i j l hi hj hl. unfold int_vals. rewrite <- inject_Z_plus, <- Zle_Qle.
      apply (shortest_tri (w := W) (n := n) hj (hs' i j hi hj) (hs' j l hj hl) (hs' i l hi hl)).
  - intros x y hx hy. exact (shortest_pos (w := W) (n := n) hpos hx hy (hs' x y hx hy)).
Qed.
Print Assumptions C73_floyd.

(** The file: [n], any number and [k] in the first line, and one line per edge; objects are counted from 1. *)
Definition orlib_file {w Tok} (pu : Tok -> option N) (pt : Tok -> option (mint w)) (first : list Tok) (lines : list (list Tok))
    (n k : nat) (E : list edge) : Prop :=
  (exists t1 t2 t3 p, first = [t1; t2; t3] /\ pu t1 = Some (N.of_nat n) /\ pu t2 = Some p /\ pu t3 = Some (N.of_nat k)) /\
  Forall2 (line_of ival pu pt) lines E.

Lemma orlib_first {w Tok} (pu : Tok -> option N) (pt : Tok -> option (mint w)) first lines n k E :
  orlib_file pu pt first lines n k E -> exists p, parse_all pu first = Some [N.of_nat n; p; N.of_nat k].
Proof.
  intros ((t1 & t2 & t3 & p & -> & h1 & h2 & h3) & _). exists p. cbn [parse_all]. rewrite h1, h2, h3. reflexivity.
Qed.

(** what [read_orlib] should return: the distances in the graph, [m] where they are larger or infinite *)
Definition distances {w} (E : list edge) (n : nat) (m : Z) (D : nat -> nat -> mint w) : Prop :=
  (forall x y g, x < n -> y < n -> graph_dist E x y g -> ival (D x y) = Z.min g m) /\
  (forall x y, x < n -> y < n -> x <> y -> (forall p g, ~ is_walk E x p y g) -> ival (D x y) = m).

(** Every file; [m] bounds the lengths, and is the value given to missing edges if there are any. *)
Theorem C73_read (w : Z) (checked : bool) {Tok} (pu : Tok -> option N) (pt : Tok -> option (mint w)) first lines
    (default : mint w) n k E (m : Z) :
  orlib_file pu pt first lines n k E -> simple_graph n m E -> (0 <= 2 * m <= imax w)%Z ->
  (forall x y, x < n -> y < n -> x <> y -> edge_len E x y = None -> ival default = m) ->
  exists mat D, read_orlib (int_add checked) pu pt checked first lines default = Ok (Some (mat, k)) /\
    is_matrix (mat_of_array2 mat) n D /\ distances E n m D /\ metric n (int_vals D) /\
    (forall x y, x < n -> y < n -> (0 <= ival (D x y) <= m)%Z).
Proof.
  intros hf hg hm hdef. destruct (orlib_first _ _ _ _ _ _ _ hf) as (p & hp).
  destruct (@read_orlib_matrix (mint w) (NumN_mint w) ival (int_add checked) Tok pu pt checked n default eq_refl E m first lines p (N.of_nat k)
    hp (proj2 hf) hg) as (mat & hv & ->).
  assert (hv' : vals_of ival n mat (weights E m)).
  { destruct hv as (D & hD & hv). exists D. split; [exact hD|]. intros a b ha hb. rewrite (hv a b ha hb). unfold weights.
    destruct (Nat.eqb_spec a b) as [->|ne]; [reflexivity|]. destruct (edge_len E a b) as [d|] eqn:e; [reflexivity|].
    exact (hdef a b ha hb ne e). }
  destruct hv' as (D & hD & hvD). assert (hm0 : (0 <= m)%Z) by lia.
  destruct (C73_floyd w checked mat n D m) as (mat' & D' & e & hM & hs & hme & hr).
  - apply is_arr_matrix. exact hD.
  - intros x hx. rewrite hvD by assumption. apply weights_diag.
  - intros x y hx hy. rewrite !hvD by assumption. apply weights_sym.
  - intros x y hx hy. rewrite hvD by assumption. apply (weights_range hg hm0).
  - lia.
  - rewrite e. cbn [bind]. rewrite Nnat.Nat2N.id. exists mat', D'. split; [reflexivity|]. split; [exact hM|].
    assert (hs' : forall x y, x < n -> y < n -> shortest (weights E m) n x y (ival (D' x y))).
    { intros x y hx hy. destruct (hs x y hx hy) as ((q & hq & eq_) & hmin).
      assert (hw : forall q x y, x < n -> y < n -> (forall z, In z q -> z < n) ->
        walk_len (fun a b => ival (D a b)) x q y = walk_len (weights E m) x q y).
      { induction q0 as [|z q0 IH]; intros x0 y0 hx0 hy0 hq0; cbn [walk_len]; [apply hvD; assumption|].
        assert (hz : z < n) by (apply hq0; left; reflexivity).
        rewrite hvD, IH by (auto; intros z' hz'; apply hq0; right; exact hz'). reflexivity. }
      split.
      - exists q. split; [exact hq|]. rewrite <- hw by assumption. exact eq_.
      - intros q' hq'. rewrite <- hw by assumption. apply hmin. exact hq'. }
    split; [split|split].
    + intros x y g hx hy hgd. exact (shortest_graph hg hm0 hx hy (hs' x y hx hy) hgd).
    + intros x y hx hy ne hno. exact (shortest_apart hg hm0 hx hy ne (hs' x y hx hy) hno).
    + exact hme.
    + intros x y hx hy. specialize (hr x y hx hy). rewrite hvD in hr by assumption. pose proof (weights_range hg hm0 x y). lia.
Qed.
Print Assumptions C73_read.

(** The whole program (after reading, a start of [k] different medoids): the clustering is optimal for single swaps
    if fewer than 100 iterations were made, and then costs at most five times the optimum. *)
Theorem C73_main (checked : bool) {Tok} (pu : Tok -> option N) (pt : Tok -> option (mint 32)) first lines
    (default : mint 32) sample n k E (m : Z) :
  orlib_file pu pt first lines n k E -> simple_graph n m E -> (0 <= 2 * m <= imax 32)%Z ->
  (forall x y, x < n -> y < n -> x <> y -> edge_len E x y = None -> ival default = m) ->
  sizes n k -> medoids n k (sample n k) -> (3 * Z.of_nat n * m <= imax 64)%Z ->
  exists (r : pam_result (mint 64)) (D : nat -> nat -> mint 32),
    orlib_main (int_add checked) pu pt checked default sample first lines = Ok (Some r) /\
    distances E n m D /\ exact_optimum (fun a => inject_Z (ival a)) (int_vals D) n k 100 (sample n k) r /\
    (r_iter r < 100 -> within_five (int_vals D) n k (inject_Z (ival (r_loss r)))).
Proof.
  intros hf hg hm hdef hs hk h64.
  destruct (C73_read 32 checked pu pt first lines default n k E m hf hg hm hdef) as (mat & D & e & hM & hd & hme & hr).
  unfold orlib_main. rewrite e. cbn [bind]. pose proof hM as (hn & _ & hget). cbn [mlen mat_of_array2] in hn. rewrite hn.
  assert (hkn : (k <=? n) = true) by (apply Nat.leb_le; destruct hs; lia). rewrite hkn. cbn [assertb bind].
  rewrite (proj1 (C70_signed (Lt := mint 64) 32 (mat_of_array2 mat))).
  set (M := mat_map ival (mat_of_array2 mat)). set (DZ := fun x y => ival (D x y)).
  assert (hMZ : diss_matrix M n DZ).
  { destruct hme as ((m1 & m2) & _). split; [split; [exact hn|split; [apply hM|]]|split].
    - intros x y hx hy. unfold M, mat_map. cbn [mget]. specialize (hget x y hx hy). cbn [mget] in hget. rewrite hget. reflexivity.
    - intros x hx. specialize (m1 x hx). unfold int_vals, inject_Z, Qeq in m1. cbn in m1. unfold DZ. cbn. lia.
    - intros x y hx hy. split; [exact Logic.I|]. exact (m2 x y hx hy). }
  destruct hk as (hl & hk). pose proof (conj hl hk : medoids n k (sample n k)) as hk'. rewrite <- hl in hk' at 1.
  assert (hs' : sizes n (length (sample n k))) by (rewrite hl; exact hs).
  assert (ho : valid_oracle P_Pam.orc2) by exact P_Pam.orc2_ok.
  destruct (C43_machine_integers 64 m M n DZ (sample n k) 100 (seq 0 n) P_Pam.orc2 ltac:(lia) hMZ
    (fun x y hx hy => proj2 (hr x y hx hy)) h64 hs' hk' (or_intror (proj1 (proj2 hme))) (Permutation_refl _) ho)
    as (r & r' & er & hx & _).
  exists r, D. assert (er' : fasterpam (Lt := mint 64) M (sample n k) 100 = Ok r).
  { unfold fasterpam. unfold rand_fasterpam in er. replace (mlen M) with n by (symmetry; exact hn). exact er. }
  rewrite er'. cbn [bind]. split; [reflexivity|]. split; [exact hd|]. rewrite hl in hx. split; [exact hx|].
  intros hit. exact (C45_exact _ _ _ _ _ _ r hme hx hit).
Qed.
Print Assumptions C73_main.

(** The program passes the largest integer for the missing edges.  If the edge between the first object and any other
    one is missing, an addition overflows: the program panics, or its matrix contains negative "distances". *)
Theorem C73_overflow (w : Z) {Tok} (pu : Tok -> option N) (pt : Tok -> option (mint w)) first lines n k E a :
  (2 <= w)%Z -> orlib_file pu pt first lines n k E -> simple_graph n (imax w) E -> (forall p q d, In (p, q, d) E -> (1 <= d)%Z) ->
  3 <= n -> 0 < a < n -> edge_len E 0 a = None ->
  read_orlib (int_add true) pu pt true first lines (MInt (imax w)) = Panic P_overflow /\
  exists mat D x y, read_orlib (int_add false) pu pt false first lines (MInt (imax w)) = Ok (Some (mat, k)) /\
    is_matrix (mat_of_array2 mat) n D /\ x < n /\ y < n /\ (ival (D x y) < 0)%Z.
Proof.
  intros hw hf hg hpos hn ha hmiss. destruct (orlib_first _ _ _ _ _ _ _ hf) as (p & hp).
  assert (himax : (1 <= imax w)%Z).
  { unfold imax. assert (h : (2 ^ 1 <= 2 ^ (w - 1))%Z) by (apply Z.pow_le_mono_r; lia). change (2 ^ 1)%Z with 2%Z in h. lia. }
  assert (ew : (2 ^ w = 2 * 2 ^ (w - 1))%Z) by (rewrite <- Z.pow_succ_r by lia; f_equal; lia).
  assert (epow : (2 ^ (w - 1) = imax w + 1)%Z) by (unfold imax; lia).
  assert (hb : exists x y, 0 < x /\ x < y /\ y < n /\ (x = a \/ y = a)).
  { destruct (Nat.eq_dec a 1) as [->|ne]; [exists 1, 2; lia|exists 1, a; lia]. }
  destruct hb as (x & y & hx & hxy & hy & hxa).
  assert (hdiag : forall x, x < n -> weights E (imax w) x x = 0%Z) by (intros; apply weights_diag).
  assert (hrange : forall x y, x < n -> y < n -> x <> y -> (1 <= weights E (imax w) x y <= imax w)%Z).
  { intros x0 y0 hx0 hy0 ne. split; [|apply (weights_range hg); lia]. unfold weights.
    destruct (Nat.eqb_spec x0 y0) as [e|_]; [contradiction|]. destruct (edge_len E x0 y0) as [d|] eqn:e; [|exact himax].
    apply edge_len_in in e. destruct e as [e|e]; exact (hpos _ _ _ e). }
  assert (h0a : weights E (imax w) 0 a = imax w).
  { unfold weights. destruct (Nat.eqb_spec 0 a); [lia|]. rewrite hmiss. reflexivity. }
  assert (hm : weights E (imax w) x 0 = imax w \/ weights E (imax w) 0 y = imax w).
  { destruct hxa as [->| ->]; [left; rewrite weights_sym|right]; exact h0a. }
  assert (hin : forall s, (0 <= s <= imax w)%Z -> ((- 2 ^ (w - 1) <=? s) && (s <=? imax w))%Z = true).
  { intros s [h1 h2]. apply andb_true_intro. split; apply Z.leb_le; lia. }
  assert (hout : forall s, (imax w < s)%Z -> ((- 2 ^ (w - 1) <=? s) && (s <=? imax w))%Z = false).
  { intros s h. apply Bool.andb_false_iff. right. apply Z.leb_gt. exact h. }
  split.
  - destruct (@read_orlib_matrix (mint w) (NumN_mint w) ival (int_add true) Tok pu pt true n (MInt (imax w)) eq_refl E (imax w) first lines p
      (N.of_nat k) hp (proj2 hf) hg) as (mat & hv & ->).
    rewrite (@overflow_stops (mint w) (NumN_mint w) ival (fun a b => eq_refl) (imax w) n (weights E (imax w)) hdiag hrange x y hx hxy hy hm
      (int_add true)); [reflexivity| | |exact hv].
    + intros u v [u1 u2] [v1 v2]. unfold int_add. cbv zeta. destruct (Z_le_gt_dec (ival u + ival v) (imax w)).
      * left. rewrite hin by lia. eexists. split; reflexivity.
      * right. rewrite hout by lia. reflexivity.
    + intros u v h. unfold int_add. cbv zeta. rewrite hout by exact h. reflexivity.
  - destruct (@read_orlib_matrix (mint w) (NumN_mint w) ival (int_add false) Tok pu pt false n (MInt (imax w)) eq_refl E (imax w) first lines p
      (N.of_nat k) hp (proj2 hf) hg) as (mat & hv & ->).
    assert (h := @overflow_negative (mint w) (NumN_mint w) ival (fun a b => eq_refl) (imax w) n (weights E (imax w)) hdiag hrange x y hx hxy hy hm
      (int_add false)).
    destruct (oks_inv _ _ (h ltac:(intros u v; unfold int_add; cbv zeta; destruct (_ && _)%bool; eexists; reflexivity)
      ltac:(intros u v c ec eu hv'; unfold int_add in ec; cbv zeta in ec; rewrite eu, Z.add_0_l, hin in ec by lia;
            injection ec as <-; reflexivity)
      ltac:(intros u v c ec hu hv' hs; unfold int_add in ec; cbv zeta in ec; rewrite hout in ec by lia; injection ec as <-;
            cbn [ival]; unfold wrap; rewrite ew, epow;
            replace (ival u + ival v + (imax w + 1))%Z with (ival u + ival v - (imax w + 1) + 1 * (2 * (imax w + 1)))%Z by lia;
            rewrite Z.mod_add, Z.mod_small by lia; lia)
      mat hv)) as (mat' & -> & (D & hD & hneg)).
    cbn [bind]. rewrite Nnat.Nat2N.id. exists mat', D, x, y. split; [reflexivity|]. split; [apply is_arr_matrix; exact hD|].
    split; [lia|]. split; [exact hy|exact hneg].
Qed.
Print Assumptions C73_overflow.

(** Lines which are not edges: after good lines, a line with too few tokens, equal ends, or an end which is not in
    [1 .. n] stops the program. *)
Definition bad_line {w Tok} (pu : Tok -> option N) (pt : Tok -> option (mint w)) (n : nat) (ln : list Tok) : Prop :=
  ln = [] \/
  (exists t x, ln = [t] /\ pu t = Some x) \/
  exists t1 t2 rest x1 x2, ln = t1 :: t2 :: rest /\ pu t1 = Some x1 /\ pu t2 = Some x2 /\
    (x1 = x2 \/ rest = [] \/
     exists t3 rest' d, rest = t3 :: rest' /\ pt t3 = Some d /\ (x1 < 2 ^ 64)%N /\ (x2 < 2 ^ 64)%N /\
       (x1 = 0 \/ x2 = 0 \/ N.of_nat n < x1 \/ N.of_nat n < x2)%N).

Theorem C73_bad_lines (w : Z) (checked : bool) {Tok} (pu : Tok -> option N) (pt : Tok -> option (mint w)) first lines bad rest
    (default : mint w) n k E (m : Z) :
  (N.of_nat n < 2 ^ 64)%N ->
  orlib_file pu pt first lines n k E -> simple_graph n m E -> bad_line pu pt n bad ->
  exists pn, read_orlib (int_add checked) pu pt checked first (lines ++ bad :: rest) default = Panic pn.
Proof.
  intros hn64 hf hg hbad. destruct (orlib_first _ _ _ _ _ _ _ hf) as (p & hp).
  unfold read_orlib. rewrite hp. cbn [length Nat.eqb assertb bind idx nth_error]. rewrite Nnat.Nat2N.id.
  assert (h0 : reads ival n default [] (mkArray2 n n (repeat default (n * n)))).
  { exists (fun _ _ => default). split; [apply is_arr_repeat|]. intros x y hx hy hne. unfold weights.
    destruct (Nat.eqb_spec x y) as [e|_]; [contradiction|reflexivity]. }
  assert (happ : forall l mat, read_edges pu pt checked (l ++ bad :: rest) mat =
    (o <- read_edges pu pt checked l mat ;; match o with None => Ok None | Some mat' => read_edges pu pt checked (bad :: rest) mat' end)).
  { induction l as [|ln l IH]; intros mat; cbn [List.app read_edges]; [reflexivity|].
    destruct (read_edge pu pt checked mat ln) as [[mat'|]|q]; cbn [bind]; [apply IH|reflexivity|reflexivity]. }
  rewrite happ.
  destruct (oks_inv _ _ (@read_edges_ok (mint w) ival Tok pu pt checked n default [] E lines _ m h0 (proj2 hf) hg))
    as (o & -> & (mat & -> & (D & hD & _))). cbn [bind read_edges].
  assert (hset : forall x1 x2 (d : mint w), (x1 < 2 ^ 64)%N -> (x2 < 2 ^ 64)%N ->
    (x1 = 0 \/ x2 = 0 \/ N.of_nat n < x1 \/ N.of_nat n < x2)%N -> exists pn, set_edge checked mat x1 x2 d = Panic pn).
  { intros x1 x2 d h1 h2 h. unfold set_edge. destruct hD as (e1 & e2 & _). rewrite e1, e2.
    change (2 ^ 64)%N with usize_bound in *.
    assert (hsub : forall z, (z < usize_bound)%N -> usize_sub checked z 1 = Panic P_overflow \/
      exists i, usize_sub checked z 1 = Ok i /\ (z = 0 -> N.of_nat n <= i)%N /\ (N.of_nat n < z -> N.of_nat n <= i)%N).
    { intros z hz. unfold usize_sub. destruct (N.leb_spec 1 z) as [hl|hl].
      - right. exists (z - 1)%N. split; [reflexivity|]. lia.
      - destruct checked; [left; reflexivity|]. right. exists (z + usize_bound - 1)%N. split; [reflexivity|]. lia. }
    destruct (hsub x1 h1) as [->|(i & -> & hi)]; [eexists; reflexivity|]. cbn [bind].
    destruct (hsub x2 h2) as [->|(j & -> & hj)]; [eexists; reflexivity|]. cbn [bind].
    assert (e : ((i <? N.of_nat n) && (j <? N.of_nat n))%N = false).
    { apply Bool.andb_false_iff. destruct h as [h|[h|[h|h]]].
      - left. apply N.ltb_ge. exact (proj1 hi h). - right. apply N.ltb_ge. exact (proj1 hj h).
      - left. apply N.ltb_ge. exact (proj2 hi h). - right. apply N.ltb_ge. exact (proj2 hj h). }
    rewrite e. eexists. reflexivity. }
  assert (hline : exists pn, read_edge pu pt checked mat bad = Panic pn).
  { destruct hbad as [->|[(t & x & -> & hx)|(t1 & t2 & rs & x1 & x2 & -> & hx1 & hx2 & hc)]].
    - exists P_unwrap. reflexivity.
    - exists P_unwrap. unfold read_edge. cbn [next_tok bind]. rewrite hx. reflexivity.
    - unfold read_edge. cbn [next_tok bind]. rewrite hx1. cbn [next_tok bind]. rewrite hx2.
      destruct (N.eqb_spec x1 x2) as [->|ne]; cbn [negb assertb bind]; [eexists; reflexivity|].
      destruct hc as [e|[->|(t3 & rs' & d & -> & hd & h1 & h2 & hc)]]; [contradiction|exists P_unwrap; reflexivity|].
      cbn [next_tok bind]. rewrite hd. destruct (hset x1 x2 d h1 h2 hc) as (pn & ->). exists pn. reflexivity. }
  destruct hline as (pn & ->). exists pn. reflexivity.
Qed.
Print Assumptions C73_bad_lines.

(** The first line: with a token which is not a number the error is returned, before anything else is looked at; with
    numbers only, but not exactly three, the program stops. *)
Theorem C73_first_line (w : Z) (checked : bool) {Tok} (pu : Tok -> option N) (pt : Tok -> option (mint w)) first lines (default : mint w) :
  ((exists t, In t first /\ pu t = None) -> read_orlib (int_add checked) pu pt checked first lines default = Ok None) /\
  ((forall t, In t first -> pu t <> None) -> length first <> 3 ->
   exists pn, read_orlib (int_add checked) pu pt checked first lines default = Panic pn).
Proof.
  assert (h1 : (exists t, In t first /\ pu t = None) -> parse_all pu first = None).
  { intros (t & hin & ht). induction first as [|t0 l IH]; cbn [parse_all]; [destruct hin|].
    destruct hin as [->|hin]; [rewrite ht; reflexivity|]. rewrite (IH hin). destruct (pu t0); reflexivity. }
  assert (h2 : (forall t, In t first -> pu t <> None) -> exists r, parse_all pu first = Some r /\ length r = length first).
  { clear h1. intros h. induction first as [|t0 l IH]; cbn [parse_all]; [exists []; split; reflexivity|].
    destruct (IH (fun t ht => h t (or_intror ht))) as (r & -> & hr).
    destruct (pu t0) as [a|] eqn:e; [|destruct (h t0 (or_introl eq_refl) e)].
    exists (a :: r). split; [reflexivity|]. cbn [length]. rewrite hr. reflexivity. }
  split.
  - intros h. unfold read_orlib. rewrite (h1 h). reflexivity.
  - intros h hl. destruct (h2 h) as (r & e & hr). exists P_assert. unfold read_orlib. rewrite e.
    replace (length r =? 3) with false; [reflexivity|]. symmetry. apply Nat.eqb_neq. rewrite hr. exact hl.
Qed.
Print Assumptions C73_first_line.

(** A token which is not a number, in a line after good lines: the error is returned, and the remaining lines are
    not looked at. *)
Theorem C73_unparsed (w : Z) (checked : bool) {Tok} (pu : Tok -> option N) (pt : Tok -> option (mint w)) first lines bad rest
    (default : mint w) n k E (m : Z) :
  orlib_file pu pt first lines n k E -> simple_graph n m E ->
  (exists t1 l, bad = t1 :: l /\ pu t1 = None) \/
  (exists t1 t2 l x, bad = t1 :: t2 :: l /\ pu t1 = Some x /\ pu t2 = None) \/
  (exists t1 t2 t3 l x y, bad = t1 :: t2 :: t3 :: l /\ pu t1 = Some x /\ pu t2 = Some y /\ x <> y /\ pt t3 = None) ->
  read_orlib (int_add checked) pu pt checked first (lines ++ bad :: rest) default = Ok None.
Proof.
  intros hf hg hbad. destruct (orlib_first _ _ _ _ _ _ _ hf) as (p & hp).
  unfold read_orlib. rewrite hp. cbn [length Nat.eqb assertb bind idx nth_error]. rewrite Nnat.Nat2N.id.
  assert (h0 : reads ival n default [] (mkArray2 n n (repeat default (n * n)))).
  { exists (fun _ _ => default). split; [apply is_arr_repeat|]. intros x y hx hy hne. unfold weights.
    destruct (Nat.eqb_spec x y) as [e|_]; [contradiction|reflexivity]. }
  assert (happ : forall l mat, read_edges pu pt checked (l ++ bad :: rest) mat =
    (o <- read_edges pu pt checked l mat ;; match o with None => Ok None | Some mat' => read_edges pu pt checked (bad :: rest) mat' end)).
  { induction l as [|ln l IH]; intros mat; cbn [List.app read_edges]; [reflexivity|].
    destruct (read_edge pu pt checked mat ln) as [[mat'|]|q]; cbn [bind]; [apply IH|reflexivity|reflexivity]. }
  rewrite happ.
  destruct (oks_inv _ _ (@read_edges_ok (mint w) ival Tok pu pt checked n default [] E lines _ m h0 (proj2 hf) hg))
    as (o & -> & (mat & -> & _)). cbn [bind read_edges].
  assert (e : read_edge pu pt checked mat bad = Ok None).
  { unfold read_edge. destruct hbad as [(t1 & l & -> & h1)|[(t1 & t2 & l & x & -> & h1 & h2)|(t1 & t2 & t3 & l & x & y & -> & h1 & h2 & ne & h3)]];
      cbn [next_tok bind]; rewrite h1; cbn [next_tok bind]; try reflexivity; rewrite h2; cbn [next_tok bind]; try reflexivity.
    destruct (N.eqb_spec x y) as [->|_]; [contradiction|]. cbn [negb assertb bind next_tok]. rewrite h3. reflexivity. }
  rewrite e. reflexivity.
Qed.
Print Assumptions C73_unparsed.

(** ** Concrete inputs: tokens are integers *)
Definition tok_u (t : Z) : option N := if (0 <=? t)%Z then Some (Z.to_N t) else None.
Definition tok_i (t : Z) : option (mint 32) := Some (MInt t).

Lemma line_ok (a b : nat) (d : Z) (rest : list Z) :
  line_of ival tok_u tok_i (Z.of_nat (S a) :: Z.of_nat (S b) :: d :: rest) (a, b, d).
Proof.
  assert (h : forall x, tok_u (Z.of_nat (S x)) = Some (N.of_nat (S x))).
  { intros x. unfold tok_u. assert (e : (0 <=? Z.of_nat (S x))%Z = true) by (apply Z.leb_le; lia). rewrite e. reflexivity. }
  exists (Z.of_nat (S a)), (Z.of_nat (S b)), d, rest, (MInt d). split; [reflexivity|].
  split; [apply h|]. split; [apply h|]. split; reflexivity.
Qed.

(** a graph on six objects, two components, one edge given twice; missing edges count 1000 *)
Definition graph_x : list edge := [(0, 1, 4%Z); (1, 2, 9%Z); (2, 3, 1%Z); (0, 2, 20%Z); (3, 0, 3%Z); (1, 2, 2%Z); (4, 5, 7%Z)].
Definition lines_x : list (list Z) := [[1; 2; 4]; [2; 3; 9]; [3; 4; 1; 8]; [1; 3; 20]; [4; 1; 3]; [2; 3; 2]; [5; 6; 7]]%Z.
Lemma file_x : orlib_file tok_u tok_i [6; 7; 2]%Z lines_x 6 2 graph_x.
Proof.
  split; [exists 6%Z, 7%Z, 2%Z, 7%N; repeat split|].
  repeat (apply Forall2_cons; [match goal with |- line_of _ _ _ (?x :: ?y :: ?z :: ?l) (?a, ?b, ?d) => exact (line_ok a b d l) end|]).
  constructor.
Qed.
Definition simple_b (n : nat) (m : Z) (E : list edge) : bool :=
  forallb (fun e => match e with (a, b, d) => (a <? n) && (b <? n) && negb (a =? b) && (0 <=? d)%Z && (d <=? m)%Z end) E.
Lemma simple_ok n m E : simple_b n m E = true -> simple_graph n m E.
Proof.
  intros h a b d hin. unfold simple_b in h. rewrite forallb_forall in h. specialize (h _ hin). cbv beta iota in h.
  apply andb_prop in h. destruct h as [h h5]. apply andb_prop in h. destruct h as [h h4]. apply andb_prop in h. destruct h as [h h3].
  apply andb_prop in h. destruct h as [h1 h2]. apply Nat.ltb_lt in h1. apply Nat.ltb_lt in h2. apply Z.leb_le in h4. apply Z.leb_le in h5.
  split; [exact h1|]. split; [exact h2|]. split; [|split; assumption]. intros ->. rewrite Nat.eqb_refl in h3. discriminate.
Qed.
Definition C73_read_case := C73_read 32 true tok_u tok_i [6; 7; 2]%Z lines_x (MInt 1000) 6 2 graph_x 1000 file_x
  (simple_ok 6 1000 graph_x eq_refl) ltac:(vm_compute; split; discriminate) (fun _ _ _ _ _ _ => eq_refl).
Definition C73_main_case := C73_main true tok_u tok_i [6; 7; 2]%Z lines_x (MInt 1000) (fun _ k => seq 0 k) 6 2 graph_x 1000 file_x
  (simple_ok 6 1000 graph_x eq_refl) ltac:(vm_compute; split; discriminate) (fun _ _ _ _ _ _ => eq_refl) s62 k62 ltac:(vm_compute; discriminate).
Definition C73_bad_case := C73_bad_lines 32 false tok_u tok_i [6; 7; 2]%Z lines_x [0; 6; 7]%Z [[1; 2; 3]]%Z (MInt 1000) 6 2 graph_x 1000
  eq_refl file_x (simple_ok 6 1000 graph_x eq_refl) ltac:(right; right; exists 0%Z, 6%Z, [7%Z], 0%N, 6%N; repeat split; right; right;
    exists 7%Z, [], (MInt 7); repeat split; left; reflexivity).
Definition C73_first_line_case1 := proj2 (C73_first_line 32 true tok_u tok_i [6; 7; 2; 1]%Z lines_x (MInt 1000))
  ltac:(intros t h; repeat (destruct h as [<-|h]; [vm_compute; discriminate|]); destruct h) ltac:(discriminate).
Definition C73_first_line_case2 := proj1 (C73_first_line 32 true tok_u tok_i [6; (-7); 2; 1]%Z lines_x (MInt 1000))
  (ex_intro _ (-7)%Z (conj (or_intror (or_introl eq_refl)) eq_refl)).
Definition C73_unparsed_case := C73_unparsed 32 false tok_u tok_i [6; 7; 2]%Z lines_x [1; (-6); 7]%Z [[1; 1; 3]]%Z (MInt 1000) 6 2 graph_x 1000
  file_x (simple_ok 6 1000 graph_x eq_refl) ltac:(right; left; exists 1%Z, (-6)%Z, [7%Z], 1%N; repeat split).
Example C73_value : read_orlib (int_add true) tok_u tok_i true [6; 7; 2]%Z lines_x (MInt 1000) =
  Ok (Some (mkArray2 6 6 (map MInt [0; 4; 4; 3; 1000; 1000;  4; 0; 2; 3; 1000; 1000;  4; 2; 0; 1; 1000; 1000;
    3; 3; 1; 0; 1000; 1000;  1000; 1000; 1000; 1000; 0; 7;  1000; 1000; 1000; 1000; 7; 0]%Z), 2)).
Proof. vm_compute. reflexivity. Qed.
Example C73_main_value : orlib_main (Lt := mint 64) (int_add true) tok_u tok_i true (MInt 1000) (fun _ k => seq 0 k) [6; 7; 2]%Z lines_x =
  Ok (Some (mkPR (MInt 14) [1; 1; 1; 1; 0; 0] 2 2 [4; 2])).
Proof. vm_compute. reflexivity. Qed.

(** The program itself, on the graph with the edges 1-2 and 2-3 of length 1: the distance of 1 and 3 is 2, but with
    overflow checks the program panics, and without it finds negative distances and a negative loss. *)
Lemma file_p : orlib_file tok_u tok_i [3; 2; 1]%Z [[1; 2; 1]; [2; 3; 1]]%Z 3 1 [(0, 1, 1%Z); (1, 2, 1%Z)].
Proof.
  split; [exists 3%Z, 2%Z, 1%Z, 2%N; repeat split|].
  apply Forall2_cons; [exact (line_ok 0 1 1 [])|]. apply Forall2_cons; [exact (line_ok 1 2 1 [])|]. constructor.
Qed.
Definition C73_overflow_case := C73_overflow 32 tok_u tok_i [3; 2; 1]%Z [[1; 2; 1]; [2; 3; 1]]%Z 3 1 [(0, 1, 1%Z); (1, 2, 1%Z)] 2
  ltac:(lia) file_p (simple_ok 3 (imax 32) [(0, 1, 1%Z); (1, 2, 1%Z)] eq_refl) ltac:(intros p q d [h|[h|[]]]; injection h as <- <- <-; lia) ltac:(lia) ltac:(lia) eq_refl.
Theorem C73_refuted : exists (lines : list (list Z)) (E : list edge) (mat : Array2 (mint 32)) (r : pam_result (mint 64)),
  orlib_file tok_u tok_i [3; 2; 1]%Z lines 3 1 E /\ simple_graph 3 1 E /\ graph_dist E 0 2 2 /\
  read_orlib (int_add true) tok_u tok_i true [3; 2; 1]%Z lines (MInt (imax 32)) = Panic P_overflow /\
  read_orlib (int_add false) tok_u tok_i false [3; 2; 1]%Z lines (MInt (imax 32)) = Ok (Some (mat, 1)) /\
  (exists d, a_get mat 1 2 = Ok d /\ (ival d < 0)%Z) /\
  orlib_main (int_add false) tok_u tok_i false (MInt (imax 32)) (fun _ k => seq 0 k) [3; 2; 1]%Z lines = Ok (Some r) /\
  (ival (r_loss r) < 0)%Z.
Proof.
  eexists. eexists. eexists. eexists. split; [exact file_p|]. split; [apply simple_ok; reflexivity|]. split.
  - right. split; [discriminate|]. split.
    + exists [1]. cbn [is_walk]. exists 1%Z, 1%Z. repeat split.
    + assert (hno : forall d, edge_len [(0, 1, 1%Z); (1, 2, 1%Z)] 0 2 <> Some d) by (intros d; vm_compute; discriminate).
      assert (h1 : forall x y d, edge_len [(0, 1, 1%Z); (1, 2, 1%Z)] x y = Some d -> (1 <= d)%Z).
      { intros x y d h. apply edge_len_in in h. destruct h as [[h|[h|[]]]|[h|[h|[]]]]; injection h as <- <- <-; lia. }
      assert (hw : forall p x y d, is_walk [(0, 1, 1%Z); (1, 2, 1%Z)] x p y d -> (1 <= d)%Z).
      { induction p as [|z p IH]; intros x y d h; cbn [is_walk] in h; [exact (h1 _ _ _ h)|].
        destruct h as (d1 & d2 & e1 & e2 & ->). apply h1 in e1. apply IH in e2. lia. }
      intros [|z p] d' h; cbn [is_walk] in h; [destruct (hno d' h)|].
      destruct h as (d1 & d2 & e1 & e2 & ->). apply h1 in e1. apply hw in e2. lia.
  - split; [vm_compute; reflexivity|]. split; [vm_compute; reflexivity|].
    split; [eexists; split; [vm_compute; reflexivity|vm_compute; reflexivity]|].
    split; [vm_compute; reflexivity|vm_compute; reflexivity].
Qed.
Print Assumptions C73_refuted.

(** Floyd's algorithm on four objects *)
Definition arr_f : Array2 (mint 32) := mkArray2 4 4 (map MInt [0; 1; 9; 9;  1; 0; 2; 7;  9; 2; 0; 3;  9; 7; 3; 0]%Z).
Definition ent_f (x y : nat) : mint 32 := nth (x * 4 + y) (a_cells arr_f) (MInt 0).
Definition C73_floyd_case := C73_floyd 32 false arr_f 4 ent_f 9
  ltac:(split; [reflexivity|split; [reflexivity|]]; intros x y hx hy; do 4 (try destruct x as [|x]); try lia; do 4 (try destruct y as [|y]); try lia; reflexivity)
  ltac:(intros x hx; do 4 (try destruct x as [|x]); try lia; reflexivity)
  ltac:(intros x y hx hy; do 4 (try destruct x as [|x]); try lia; do 4 (try destruct y as [|y]); try lia; reflexivity)
  ltac:(intros x y hx hy; do 4 (try destruct x as [|x]); try lia; do 4 (try destruct y as [|y]); try lia; vm_compute; split; discriminate)
  ltac:(vm_compute; discriminate).
Example C73_floyd_value : all_pairs_shortest_path (int_add false) arr_f =
  Ok (mkArray2 4 4 (map MInt [0; 1; 3; 6;  1; 0; 2; 5;  3; 2; 0; 3;  6; 5; 3; 0]%Z)).
Proof. vm_compute. reflexivity. Qed.
