# Formal model of kno10/rust-kmedoids in Rocq (Coq 8.16.1)

## Layout of `rocq/theories`

| files | content |
|-------|---------|
| `Base.v`, `Num.v` | panic monad, loops, numeric operation classes (no laws) |
| `M_*.v` | the model, one definition per Rust function or loop body, each citing file and lines |
| `Inst.v` | number types: `Z`, `Q`, binary64 (`SpecFloat` of the standard library) and mixed pairs; `Float32.v`, `Float32Loss.v`: binary32 dissimilarities and losses |
| `Hoare.v` | rules for the panic monad and the loops |
| `Spec.v`, `SpecFacts.v` | the specification, over `Q` and plain lists; imports nothing of the model |
| `Reference.v`, `ReferenceDyn.v` | plain searches (first and best improvement, greedy growth, Lloyd's iteration, shrinking search) used as specification in C52-C59; imports nothing of the model |
| `Laws.v` | what is assumed of the number types (law classes), and the proofs for the instances |
| `*Shape.v`, `*Exact.v`, `*Facts.v`, `*Main.v`, `MscK2.v`, `MscAny.v`, `LocalSearch.v`, `BuildMsc.v`, `Adapter.v`, `Bounded.v`, `FloatExact.v`, `Approx.v`, `RefFacts.v`, `DynRef.v`, `Term*.v` | proofs |
| `Ex.v` | concrete inputs used beside the theorems |
| `P_*.v` | the property theorems, `Print Assumptions` below each, and a concrete case meeting the hypotheses |
| `Replay.v` | the unit tests of the repository run on the model, float results compared bit by bit |

## Approach

* Everything that can panic in Rust returns `res A = Ok a | Panic reason` (slice indexing, `assert!`,
  `unwrap`, matrix access).  `&mut` arguments become returned values.  Loops are folds with early exit
  (`forM`) or bounded iteration (`whileM maxiter`), the bound being `maxiter` of the program.
* The model is generic in the number types exactly as the Rust code is: the input type `N` and the
  loss type `L` come with the operations of the trait bounds (classes `NumN`, `NumL`, `FromN`) and
  *no laws*.  Theorems then say which laws they need:
  - none: panics, counters, indices, for every numeric type (f64 with NaN, wrapping integers ...);
  - `OrdLaws`: comparison, equality, zero test on the valid numbers of `N` are those of rationals.
    Proved for `Z`, `Q` and finite binary64;
  - `AddLaws`/`LossLaws`: `+ - neg < from` on `L` are exact (no rounding, no overflow);
  - `DivLaws`: division is exact, too.
  Instances proved: `(Z,Z)`, `(Z,Q)`, `(Q,Q)`; `OrdLaws` for binary64.
* A matrix is the `ArrayAdapter` trait as a record (`len`, `is_square`, `get`), with models of the two
  implementations (`Array2`, `LowerTriangle`, the latter with 64-bit overflow).
* Randomness (`rand::seq::index::sample`) is an arbitrary permutation argument.  Rayon is an arbitrary
  schedule argument: number of threads, order of mutex acquisition, reduction trees.
* Claims that the program does not meet are stated in full and refuted by a computed witness
  (`…_refuted : exists …`), together with the strongest variant that does hold.

## Properties

| id | modelled | proof idea |
|----|----------|------------|
| C01-C05 | fasterpam.rs | cache invariant "near/seco are the two cheapest slots" preserved by `do_swap`; swap delta lemma per object, summed |
| C06 | same | induction on the loops, no laws |
| C07 | same | invariant "all candidates since lastswap are non-improving" |
| C08 | same | strictly decreasing loss over a finite set of medoid lists (pigeonhole) |
| C09, C10 | fasterpam, fastpam1, pam, alternating, par_fasterpam | index-validity invariants, no laws |
| C11 | util.rs | fold invariant |
| C12 | rand_fasterpam, the permutation as argument | same loop lemmas |
| C13 | par_fasterpam with a schedule oracle | simulation against rand_fasterpam |
| C14, C15 | fastpam1.rs, pam.rs | delta lemma for both candidate evaluations, simulation |
| C16, C17 | pam.rs BUILD | greedy invariant; the cache left by BUILD is the one of `initial_assignment` |
| C18, C19 | alternating.rs | invariants, monotonicity, pigeonhole; asymmetric counterexamples |
| C20-C23 | silhouette.rs, par_silhouette.rs | buffer invariant against the textbook definition |
| C24-C29 | fastermsc.rs, fastmsc.rs, pammedsil.rs | three-nearest invariant, ratio delta lemma, k = 2 separately |
| C30, C31, C41 | dynmsc.rs | three-nearest invariant preserved by `remove_med`; witnesses for the defects |
| C32 | pammedsil.rs BUILD | greedy invariant over the candidates other than 0, witnesses |
| C33-C36 | pamsil.rs | invariant of the candidate loops, witnesses |
| C37, C38 | arrayadapter.rs | arithmetic over `N` with explicit overflow; a relation between runs on equal entries |
| C39 | initialization.rs `first_k` | direct |
| C40 | PAM family, alternating, FasterMSC, FastMSC, PAMMEDSIL swap over binary64 | order part of the cache invariant without exact addition (`MscAny.v` for the medoid silhouette) |
| C42 | debug builds (`M_Debug.v`) | the cache invariant implies the assertions |
| C43, C44 | PAM family, alternating with wrapping integers and binary64 losses | a relation between the run and that over `Z`, with a bound on every intermediate value |
| C45 | PAM family | local search analysis of Arya et al. (`Approx.v`, over the specification only), applied to the local optima of C07, C14 |
| C46, C47 | silhouettes, FasterMSC, PAM family in binary64 | `FloatRound.v`: each operation of `SpecFloat` is a nearest rounding, which crosses no representable number and has relative error 2^-53; induction over the sums |
| C48 | entry checks of the silhouette-based algorithms | direct, no laws |
| C49, C50, C51 | fixed points of the swap algorithms, of alternating and of the MSC family | local search invariants (`fa_fix`, `sa_end`), induction on maxiter |
| C52-C55 | PAM family, alternating, MSC family, BUILD, against the searches of `Reference.v` | loop invariants naming the state of the reference search |
| C56-C58 | scaled, relabelled and interrupted runs | facts about the reference searches (`RefFacts.v`), transported by C52-C55 |
| C59 | dynmsc.rs against the search of `ReferenceDyn.v` | loop invariant over the removals; witness for five medoids |
| C60 | the loop conditions `loss >= lastloss` of all swap algorithms, in binary64 | the computed loss is a function of the medoids and decreases; two non-terminating runs as witnesses |
| C61 | the accumulated losses of find_best_swap / find_best_swap_pam and the stopping rules, in binary64 | rounding-error bounds for the accumulators (induction over the objects), then the local-search argument with slack; two early stops as witnesses |
| C62 | par_fasterpam with every scheduling, in binary64 | error bounds for merged partial accumulators and for sums with any bracketing; termination by counting the floating-point levels near the exact sums |
| C63 | the medoid-silhouette algorithms in binary64 | error bounds for the ratios and the accumulated changes, over their possible cancellation; a generic pass argument (`FloatPass.v`); rounding is monotone (`FloatMono.v`) |
| C64 | BUILD, pam with BUILD, one medoid, alternating in binary64 | the sums of BUILD as cancelling sums within err of the change of the total deviation (`FloatBuild.v`), then the invariant of C61 from the medoids of BUILD; a witness for the error term |
| C65 | pammedsil with its own start and dynmsc in binary64 | the rounds of dynmsc as in C31, each with the rounding bounds of C63; an order on the floats which are not NaN (`FloatDyn.v`); the BUILD sums of C64 with the records of the swap phase (`FloatBuildMsc.v`) | 
| C66 | the silhouette and PAMSIL in binary64 | relative errors of the means and of (b - a) / max(a, b), which has no cancellation problem because a and b are sums of non-negative numbers (`FloatSilErr.v`); PAMSIL only compares finite values, so the argument of C33-C36 applies to the computed values (`PamsilFacts.v`, `FloatPamsil.v`); a witness for the lower limit on the entries |
| C67 | all algorithms with `f32` dissimilarities and `f64` losses | the conversion is exact (`Float32.v`), so C60-C66 apply and their range hypotheses hold of every matrix; the sums inside fastmsc / fastermsc are rounded to `f32`, which the bounds of C63 take as a parameter (`SumErr`); a witness for their overflow |
| C68 | the PAM family and alternating with `f32` losses | the error analysis of C61, C62 and C64 is carried out for any format with correctly rounded operations (`FloatFmt.v`: class `LossFmt`; `FloatSwap.v`, `FloatPar.v`, `FloatBuild.v`, `FloatQuality.v`), of which binary64 and binary32 are instances; termination as in C60; two witnesses |
| C69 | dynmsc with binary64 losses | the sum of the ratios cached by a state is a function of the (medoid, object) pairs in the caches, decreases within each search, and there are finitely many such states (`TermDyn.v`); for at most four medoids the caches are determined by the medoids |
| C70 | machine integers and `f32` as dissimilarities, all algorithms | a relation between runs with different dissimilarity types (`RelN.v`): only comparison, zero test and conversion matter, and in three functions one addition; a witness for its overflow |
| C71 | the PAM family on inputs without near ties | the errors of C61, C62 and C64 are below the distance of the total deviations, so every comparison comes out as in exact arithmetic and the searches of `Reference.v` are followed step by step (`FloatSep.v`); a witness with a tie |
| C72 | the medoid silhouette algorithms on inputs without near ties | as C71 with the errors of C63 (`FloatSepMsc.v`); for two medoids a swap which would put a medoid in twice never lowers the computed loss, because the loss computed for unchanged medoids has the same value; witnesses with ties |
| C73 | examples/orlib-kmedoids.rs (`M_Orlib.v`) against walks and graphs (`SpecGraph.v`) | one stage of Floyd's algorithm equals one relaxation of all pairs, although done in place and on one triangle only; induction over stages and walks; then C43, C45, C70 (`OrlibFacts.v`); overflow: the first row stays as it is until the addition which overflows, and entries only decrease |
| C74 | examples/mnist-kmedoids.rs (`M_Mnist.v`) against integer images (`SpecMnist.v`) | pixels, differences, squares and sums lie on the grids 2^-8 and 2^-16 and are exact in every order; the computed root is the rounding of a number below and of one above the exact root (`FloatSqrt.v`); Cauchy-Schwarz for integers; the distances rounded up to 2^-68 are a metric close to the matrix, then C61 and C75 (`MnistFacts.v`) |
| C75 | total deviations for two dissimilarities which differ by at most d (`Perturb.v`) | each term of the sum changes by at most d; then C12, C14 and the factor five with slack (`Approx.v`) |
| C76 | benches/bench.rs (`M_Bench.v`) | invariant of the two loops which fill the matrix (every cell its own draw); then C70, C43 and the properties of the runs with unbounded integers |
| C77 | the PAM family with overflow checks (`M_Checked.v`) | "an overflow or the same" is preserved by all constructs (`CheckedFacts.v`), once against wrapping and once against unbounded integers; below the bound, the range argument of C43 again, now for the checked operations (`BoundedChk.v`) |
| C78 | the k groups as a labelling of the objects with a diameter and a gap, nothing of the model (`Groups.v`) | a missing group makes some swap win more than it costs, and a nearly best swap never gives up a group; so every pass leaves one medoid in each (`GroupPass.v`, for any arithmetic whose errors are bounded), and medoids which no swap improves are the best of each group; binary64 from C61 and C64 (`P_FloatGroups.v`, `FloatPam.v`) |
| C79 | the textbook silhouettes of C20 and the groups of C78 | the medoid of every cluster has its label, so no label is unused; on separated groups every object is closer to its own group (`GroupSil.v`); composed with C20, C21, C23, C46, C66 and C78 (`P_Evaluate.v`) |
| C80 | `reads`, the number of calls of `mat.get`; bounds are arithmetic in n, k, iterations and swaps | a second copy of the model counts reads (`M_Cost.v`) and is proved to compute the same (`CostFacts.v`); bounds by a Hoare logic with costs (`CostBounds.v`); exactly the n - k objects which are no medoids are evaluated, and the paired runs of C15 perform the same swaps (`CostExact.v`) |
| C81 | `sil_object`, `sil_mean`, `near_ratio`, `med_sil` of `Spec.v` for two matrices related by permutations and a factor; `linear`: the comparison is a linear order on some values | the members of a cluster are permuted, means scaled (`SilSym.v`); bit for bit: every cluster is summed in the order of the objects whatever its name is, and the smallest element of a list in a linear order does not depend on the order of the list; in binary64 means are finite and never -0 |
| C82 | `reads` as in C80, for the remaining algorithms (`M_Cost2.v`) | the same copy of the model text and the same logic with costs: exact counts for BUILD (`CostMore.v`), bounds for PAMSIL, PAMMEDSIL, DynMSC and par_fasterpam (`CostMore2.v`); a schedule splits the objects into chunks which together are all objects |
| C83 | fastermsc, fastmsc and dynmsc with an addition of dissimilarities which may panic (`M_CheckedMsc.v`) | the relation of C70 between two dissimilarity types, weakened to "or the left run panics with an overflow, if that is allowed" (`RelN.v`, `ro`); C63 and C65 for what is returned |
| C84 | the silhouette functions and pamsil with `Lt = Z` (truncating division), and w-bit integers | the value of one object is sign(b) - sign(a) of the truncated means; the loop of PAMSIL by `iteration_cases` (`PamsilFacts.v`), as no swap has a positive value; a simulation as in C43 for w bits |
| C85 | `M_CheckedSil.v`: the silhouettes and PAMSIL with every `+`, `-`, `/` on losses and every `u32` increment possibly panicking | `CheckedSilFacts.v`: a refinement up to arithmetic panics (as in C77), and the divisors are positive; the relation `rs` in `P_CheckedSil.v` (panic, or exact) with bounds on all intermediate values |
| C86 | `pam_build`, `pam`, the BUILD of PAMSIL and PAMMEDSIL, and `alternating` | `Greedy.v`: the total deviation is supermodular in the medoids, so each greedy step closes 1/q of the gap to any q medoids (Nemhauser, Wolsey, Fisher); the rest is C16, C32 and C64.  Worst cases: a star metric of any size, by its two groups |
| C87 | `fastermsc`, `fastmsc`, `pammedsil_swap`, `pammedsil` on well separated groups | `GroupMsc.v`: medoids in all groups have a silhouette of at least 1 - d/s, medoids which miss one have less; the passes are followed in the reference searches (C54), the rest is C26, C28, C32, C63 and C65 |
| C88 | `dynmsc` on well separated groups | `GroupDyn.v`: fewer medoids miss a group, more medoids put two in a group, which both cost more than 1 - d/s leaves; the rest is C30, C31, C59 and C87 |
| C89 | `pam_build` and the BUILD phases of `pammedsil` and `pamsil` for different numbers of medoids | `Nested.v`: a loop over a longer range continues the loop over the shorter one; any numeric types; the losses by C53's reference construction |
| C90 | all algorithms started with as many medoids as objects; `pam_build` for every k | `AllMedoids.v`: the initial records put every object at its own medoid, so the loops skip every candidate; any loss type with 0 + 0 = 0; exact arithmetic for `dynmsc` and `pam_build` |
| C91 | `fasterpam`, `rand_fasterpam`, `fastpam1`, `pam_swap` started with repeated medoids | `Repeats.v`: the invariants of C01 to C15 without the parts which need different medoids; a swap optimum with a repetition has deviation zero, as the spare medoid could be put anywhere |
| C92 | the swap algorithms with n - 1 medoids | `NearlyAll.v`: every other set of n - 1 objects is one swap away, so the best swap for the missing object leads to the optimum; for the plain searches of C52 to C54 |
| C93 | the main loops of all algorithms under different `maxiter` | `IterLimit.v`: every round of a loop counts one iteration and does not lower the number of swaps; induction over the rounds, no law of arithmetic used; C93_more_* from C58 and the monotonicity of the algorithms |
| C94 | the results of the swap algorithms, alternating and the medoid silhouette algorithms | `Twins.v`: the swap of a replaceable medoid for a far object; pigeonhole principle for the places |
| C95 | the swap algorithms from permuted initial medoids | `MedOrder.v`: the reference searches (C52-C54) follow each other, since the best of the same candidates is unique |
| C96 | the results of the swap algorithms, PAM with BUILD and alternating on metric data | `P_Outliers.v`: two of the medoids are no outliers (pigeonhole), so by C94 no outlier is farther from its medoid than `n * w` |
| C97 | two runs of the swap algorithms or of alternating, with `k` and `k + 1` medoids | `P_Grow.v`: an added medoid saves at least its own distance, the runs do not lose it; averaging over the objects which are no medoids |
| C98 | the assignments returned by the swap algorithms, alternating and the medoid silhouette algorithms | `P_Star.v`: triangle inequality and the nearest assignments of C40; a line as a special metric |
| C99 | two runs of the swap algorithms, on all objects and on those of some clusters | `P_Parts.v`: a better swap within the part would be one of the whole, since the other objects keep their medoids; then C49 |
| C100 | two runs of the swap algorithms, the second with copies of the medoids added | `P_Copies.v`: copies add nothing to the loss of the medoids and nothing negative to that of a swap; then C49; refuted for other copies and for `fastermsc` |
| C101 | two runs of the swap algorithms, the second on dissimilarities which speak even more for the result of the first | `P_Consistent.v`: no swap falls by more than the medoids do; the removed medoid is paid for by the new one; then C49 |
| C102 | the swap algorithms and `pam` on a matrix made for a partition | `P_Rich.v`: distance 1 within the groups and n + 1 between them is a metric with separated groups; then C78 and C87 |
| C103 | two runs of the swap algorithms, the second with every object m times | `P_Repeat.v`: all losses are multiplied by m; then C49 and C50; refuted for `fastermsc` |

## Trusted base

* The Coq 8.16.1 kernel (with `vm_compute`), and `coqc`.
* The reading of the Rust source recorded in the comments of `M_*.v`.
* `Print Assumptions` prints "Closed under the global context" for every theorem of the manifest: no
  axiom is used, neither own nor of the standard library.  (Loading the standard library brings
  the axioms of `Coq.ssr.ssrunder` into scope; no theorem depends on them.)

## Modelled

All of `src/*.rs` except the items below: `alternating`, `assign_nearest`, `fasterpam`,
`rand_fasterpam`, `par_fasterpam`, `fastpam1`, `pam_swap`, `pam_build`, `pam`, `silhouette`,
`par_silhouette`, `medoid_silhouette`, `fastermsc`, `fastmsc`, `pammedsil_swap`, `pammedsil`,
`pamsil_swap`, `pamsil`, `dynmsc`, all helpers of `util.rs`, both array adapters, `first_k`,
with all panics (`assert!`, indexing, `unwrap`).  Of `examples/`: `orlib-kmedoids.rs`, from the tokens of the
lines on (splitting and parsing of tokens are parameters); `mnist-kmedoids.rs`, from the bytes of the file on
(the order of the additions in ndarray's `dot` is a parameter).  `benches/bench.rs` without the measurement.

## Not modelled

* `initialization.rs` `random_initialization`: `rand`'s sampling itself.  Its result is an arbitrary
  list of distinct indices; so are the permutations of `rand_fasterpam` and `par_fasterpam`.
* Machine integers for the loss: the exact theorems use `Z`.  C43 transfers them to wrapping `w`-bit
  integers within a bound; the law-free theorems (C09, C10 …) cover wrapping without a bound.  C70 does
  the same for the dissimilarities, C84 for the silhouettes and PAMSIL with integer losses.  C77: overflow checks on losses, for the PAM family; C83: overflow checks
  on dissimilarities, for fastermsc, fastmsc and dynmsc (the other functions do no arithmetic on them).
  C85: overflow checks and divisions by zero, for the silhouettes and PAMSIL; elsewhere `Z.quot x 0 = 0`.
* Rayon's and the mutex' implementation; data races are excluded by Rust's type system.  A schedule is
  the number of tasks, the order in which they merge, and a reduction tree.
* ndarray strides, views and memory layout; only shape and elements.
* `usize`/`u32` counters of iterations and swaps are `nat`.  The `u32` member counters of the
  silhouette do not wrap (they would beyond 2^32 objects) except in `M_CheckedSil.v` (C85); `n as u32` is
  modelled as truncation.
* Memory exhaustion, `Vec` capacity, running time (but C80 and C82 count the reads of the matrix).
* `debug_assert!`s are left out of the main functions (they are inactive in release builds) and modelled
  separately in `M_Debug.v`; the remaining one (alternating.rs:78) holds by construction.
