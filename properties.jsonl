{"id": "C01", "title": "FasterPAM: reported loss is the loss of the returned clustering", "statement": "When fasterpam returns (loss, assi, iter, swaps), loss equals the sum over all objects i of the dissimilarity between i and the returned medoid med[assi[i]], and that sum equals the total deviation of the returned medoid set (each object charged its cheapest medoid). (For k = 1 the matrix must be symmetric, as the k = 1 path sums rows instead of columns; refuted otherwise.)", "quantifier": "all matrix sizes n, all dissimilarity matrices with zero diagonal and non-negative entries, all k, all lists of distinct in-range initial medoids, all maxiter, all exact number types", "why_tests_cant": "The loss is maintained incrementally through a cache of nearest / second nearest medoids over an unbounded swap history; tests sample a handful of histories.", "anchors": ["src/fasterpam.rs:fasterpam", "src/fasterpam.rs:initial_assignment", "src/fasterpam.rs:do_swap"]}
{"id": "C02", "title": "FasterPAM: every object is assigned to a nearest medoid", "statement": "In the returned assignment, every object's medoid is at least as close as every other returned medoid; the assignment has one entry per object and every entry is a valid cluster index.", "quantifier": "all matrix sizes n, all dissimilarity matrices with zero diagonal and non-negative entries, all k, all lists of distinct in-range initial medoids, all maxiter, all exact number types", "why_tests_cant": "Depends on the cached second-nearest medoid being right after every possible sequence of swaps and ties.", "anchors": ["src/fasterpam.rs:do_swap", "src/fasterpam.rs:update_second_nearest"]}
{"id": "C03", "title": "FasterPAM: medoids stay k distinct valid objects", "statement": "After fasterpam the medoid slice still has the same length k, all entries are valid object indices and are pairwise distinct.", "quantifier": "all matrix sizes n, all dissimilarity matrices with zero diagonal and non-negative entries, all k, all lists of distinct in-range initial medoids, all maxiter, all exact number types", "why_tests_cant": "A swap could insert an object that already is a medoid; only an invariant over all histories excludes it.", "anchors": ["src/fasterpam.rs:fasterpam"]}
{"id": "C04", "title": "FasterPAM: no empty clusters", "statement": "In the returned clustering the object med[c] is itself assigned to cluster c, for every cluster c; in particular no cluster is empty, even with duplicate points (zero distances between distinct objects). (For k = 1 all objects are in cluster 0.)", "quantifier": "all matrix sizes n, all dissimilarity matrices with zero diagonal and non-negative entries, all k, all lists of distinct in-range initial medoids, all maxiter, all exact number types", "why_tests_cant": "Tie-breaking with duplicate points must be right for every data set and swap history.", "anchors": ["src/fasterpam.rs:initial_assignment", "src/fasterpam.rs:do_swap"]}
{"id": "C05", "title": "FasterPAM: never worsens, every reported swap is a strict improvement", "statement": "The final loss is at most the total deviation of the initial medoids; it is strictly smaller whenever n_swap > 0; and when n_swap = 0 the medoid slice is unchanged. (k = 1: symmetric matrices.)", "quantifier": "all matrix sizes n, all dissimilarity matrices with zero diagonal and non-negative entries, all k, all lists of distinct in-range initial medoids, all maxiter, all exact number types", "why_tests_cant": "The improvement is predicted by an incremental formula (removal loss plus shared accumulator); its exactness is an algebraic fact about all inputs.", "anchors": ["src/fasterpam.rs:find_best_swap", "src/fasterpam.rs:update_removal_loss"]}
{"id": "C06", "title": "FasterPAM: iteration and swap counters", "statement": "The reported iteration count is at most maxiter (k >= 2), the reported swap count is at most n times the iteration count, and maxiter = 0 returns the initial medoids unchanged with zero counters.", "quantifier": "all numeric types including floats with NaN, all matrices, all medoids, all maxiter", "why_tests_cant": "Must hold for each termination path of the loop.", "anchors": ["src/fasterpam.rs:fasterpam"]}
{"id": "C07", "title": "FasterPAM: result is a local optimum when it stops before maxiter", "statement": "If the reported iteration count is smaller than maxiter, no replacement of a single medoid by any object yields a smaller total deviation than the reported loss. (k = 1: symmetric matrices.)", "quantifier": "all matrix sizes n, all dissimilarity matrices with zero diagonal and non-negative entries, all k, all lists of distinct in-range initial medoids, all maxiter, all exact number types", "why_tests_cant": "Relies on the 'last swap' early-exit bookkeeping covering every candidate after the final swap; a missed candidate only shows for special orders.", "anchors": ["src/fasterpam.rs:fasterpam (lastswap)"]}
{"id": "C08", "title": "FasterPAM: convergence for every input", "statement": "With exact arithmetic the number of swaps is smaller than n^k, and any maxiter above n^k is never exhausted (so the result is a local optimum); for integer dissimilarities swaps + final loss <= initial loss. (k = 1: symmetric matrices.)", "quantifier": "all matrix sizes n, all dissimilarity matrices with zero diagonal and non-negative entries, all k, all lists of distinct in-range initial medoids, all maxiter, all exact number types", "why_tests_cant": "Termination is a statement about unbounded histories.", "anchors": ["src/fasterpam.rs:fasterpam"]}
{"id": "C09", "title": "PAM family: no panic on valid input, for every numeric type", "statement": "On a square matrix with 1 <= k <= n < 2^32 and in-range initial medoids, fasterpam, rand_fasterpam, par_fasterpam, fastpam1, pam_swap, pam_build, pam and alternating return normally (no index out of bounds, failed assertion or unwrap), whatever the numbers are: NaN, infinities, negative values, asymmetric matrices, non-zero diagonals.", "quantifier": "all numeric types (no laws assumed, except 0 < 0 is false for PAM), all matrices, medoids, maxiter", "why_tests_cant": "Index-safety of the sentinel-based caches must hold along every execution.", "anchors": ["src/fasterpam.rs", "src/fastpam1.rs", "src/pam.rs", "src/alternating.rs", "src/util.rs"]}
{"id": "C10", "title": "PAM family: documented panics happen", "statement": "fasterpam, rand_fasterpam, par_fasterpam, fastpam1, pam_swap, pam and pam_build panic when the matrix is not square, when k = 0 and when k > n, as documented, and when n or k does not fit into the u32 indices; conversely they return a result only for a square matrix and 1 <= k <= n. (For k = 1 the medoid-slice variants skip these checks: the claim is refuted there.)", "quantifier": "all numeric types, all matrices and medoid lists", "why_tests_cant": "Documented contract for all invalid inputs; some entry paths bypass the checks.", "anchors": ["src/fasterpam.rs:initial_assignment", "src/util.rs:choose_medoid_within_partition", "src/pam.rs:pam_build"]}
{"id": "C11", "title": "k = 1 finds the optimal single medoid", "statement": "With a single initial medoid, fasterpam, rand_fasterpam, par_fasterpam, fastpam1, pam_swap, fastermsc, fastmsc, pammedsil_swap and pamsil_swap (and pamsil with k = 1) return a medoid that minimises the sum of dissimilarities to all objects over all n choices (on ties the initial medoid, otherwise the smallest index), that sum as loss, all objects in cluster 0, one iteration, and 1 swap iff the medoid changed.", "quantifier": "all n, all matrices with zero diagonal, all initial medoids, all exact number types", "why_tests_cant": "Quantifies over all candidates and all matrices.", "anchors": ["src/util.rs:choose_medoid_within_partition", "src/fasterpam.rs:fasterpam"]}
{"id": "C12", "title": "rand_fasterpam: guarantees independent of the random order", "statement": "For every processing order (any permutation of the objects) rand_fasterpam has the same guarantees as fasterpam: loss consistency, nearest assignment, distinct medoids, monotonicity, counters, local optimality when stopping early; with the identity order it returns exactly what fasterpam returns. (k = 1: symmetric matrices.)", "quantifier": "all permutations of the objects, plus everything quantified for fasterpam", "why_tests_cant": "Randomised order; tests use one seed.", "anchors": ["src/fasterpam.rs:rand_fasterpam"]}
{"id": "C13", "title": "par_fasterpam: result independent of threads and schedule", "statement": "With exact arithmetic par_fasterpam returns the same medoids, assignment, iteration count, swap count and loss as rand_fasterpam with the same order, for every number of worker threads, every order in which the workers acquire the mutex, and every bracketing of the parallel reductions.", "quantifier": "all thread counts >= 1, all merge orders, all reduction trees (different at every call), all inputs", "why_tests_cant": "Schedules cannot be enumerated by tests.", "anchors": ["src/par_fasterpam.rs:par_fasterpam", "src/par_fasterpam.rs:par_find_best_swap", "src/par_fasterpam.rs:par_do_swap", "src/par_fasterpam.rs:par_initial_assignment"]}
{"id": "C14", "title": "FastPAM1 and PAM: steepest descent with consistent results", "statement": "fastpam1 and pam_swap return loss, assignment and medoids that are consistent (loss = sum of distances to assigned nearest medoids = total deviation), distinct medoids, never worse than the start; every iteration performs the globally best single swap, so n_swap is n_iter or n_iter - 1; when n_iter < maxiter the result is a local optimum. (k = 1: symmetric matrices.)", "quantifier": "all matrix sizes n, all dissimilarity matrices with zero diagonal and non-negative entries, all k, all lists of distinct in-range initial medoids, all maxiter, all exact number types", "why_tests_cant": "Best-swap selection must be globally optimal for all matrices and ties.", "anchors": ["src/fastpam1.rs:fastpam1", "src/pam.rs:pam_optimize", "src/pam.rs:find_best_swap_pam"]}
{"id": "C15", "title": "FastPAM1 yields the same results as the original PAM", "statement": "From the same initial medoids, fastpam1 and pam_swap return the same loss, assignment, medoids, iteration count and swap count.", "quantifier": "all matrix sizes n, all dissimilarity matrices with zero diagonal and non-negative entries, all k, all lists of distinct in-range initial medoids, all maxiter, all exact number types", "why_tests_cant": "Documented equivalence of two different algorithms on all inputs, including ties.", "anchors": ["src/fastpam1.rs:fastpam1", "src/pam.rs:pam_swap"]}
{"id": "C16", "title": "PAM BUILD is greedy and stops early only at zero loss", "statement": "pam_build returns between 1 and k distinct medoids; the first minimises the total deviation over all single objects; each further one minimises the total deviation over all objects that could be added; loss and assignment are consistent; fewer than k medoids are returned only if the loss is already 0.", "quantifier": "all n, k, matrices with zero diagonal and non-negative entries, exact number types", "why_tests_cant": "Optimality over all candidates at every step.", "anchors": ["src/pam.rs:pam_build", "src/pam.rs:pam_build_initialize"]}
{"id": "C17", "title": "PAM = BUILD followed by SWAP", "statement": "pam(mat,k,maxiter) returns exactly what pam_swap returns when started from the medoids of pam_build(mat,k); in particular the PAM loss is at most the BUILD loss.", "quantifier": "all matrix sizes n, all dissimilarity matrices with zero diagonal and non-negative entries, all k, all lists of distinct in-range initial medoids, all maxiter, all exact number types", "why_tests_cant": "Two code paths construct the nearest/second-nearest cache differently; equality must hold for all inputs including ties.", "anchors": ["src/pam.rs:pam", "src/pam.rs:pam_build_initialize", "src/fasterpam.rs:initial_assignment"]}
{"id": "C18", "title": "Alternating: consistent clustering", "statement": "alternating returns a loss equal to the total deviation of the returned medoids, an assignment in which every object has a nearest medoid, k distinct medoids each lying in its own cluster, and at most maxiter iterations.", "quantifier": "all matrix sizes n, all dissimilarity matrices with zero diagonal and non-negative entries, all k, all lists of distinct in-range initial medoids, all maxiter, all exact number types", "why_tests_cant": "Invariant over unbounded alternation.", "anchors": ["src/alternating.rs:alternating", "src/alternating.rs:assign_nearest", "src/util.rs:choose_medoid_within_partition"]}
{"id": "C19", "title": "Alternating: monotone, converges to a fixpoint", "statement": "For symmetric matrices the final loss of alternating is at most the initial loss, and the number of iterations is at most n^k whatever maxiter; when it stops before maxiter, each medoid minimises the within-cluster sum over its cluster members and another run leaves everything unchanged. For asymmetric matrices both monotonicity and convergence fail (refuted: the loss increases; a cycle of length 6 exhausts every maxiter).", "quantifier": "all matrix sizes n, all dissimilarity matrices with zero diagonal and non-negative entries, all k, all lists of distinct in-range initial medoids, all maxiter, all exact number types, symmetric matrices", "why_tests_cant": "Unbounded histories.", "anchors": ["src/alternating.rs:alternating"]}
{"id": "C20", "title": "Silhouette equals Rousseeuw's definition", "statement": "silhouette(mat, assi, _) returns the average over all objects of (b-a)/max(a,b) with a the mean dissimilarity to the rest of the own cluster and b the smallest mean dissimilarity to another cluster (0 for singletons and 0/0), for every assignment that uses all labels 0..K-1, K >= 2; for one cluster it returns 0.", "quantifier": "all n, matrices with non-negative entries, all dense assignments, exact number types", "why_tests_cant": "All assignments and matrices.", "anchors": ["src/silhouette.rs:silhouette", "src/silhouette.rs:checked_div"]}
{"id": "C21", "title": "Silhouette values lie in [-1,1]; samples are consistent", "statement": "Every individual silhouette and the average lie in [-1,1]; with samples=true one value per object is returned and the reported value is their mean; samples=false returns an empty list and the same mean.", "quantifier": "all n >= 1, non-negative matrices, all assignments (dense or not), exact number types (the samples flag part: all numeric types)", "why_tests_cant": "All inputs.", "anchors": ["src/silhouette.rs:silhouette"]}
{"id": "C22", "title": "par_silhouette agrees with silhouette", "statement": "par_silhouette returns the same value as silhouette, bit for bit in every numeric type, whenever the assignment has a label other than 0. (For assignments with the single label 0 the claim is refuted: -1 versus 0.)", "quantifier": "all numeric types, matrices, assignments", "why_tests_cant": "Two implementations on all inputs.", "anchors": ["src/par_silhouette.rs:par_silhouette", "src/silhouette.rs:silhouette"]}
{"id": "C23", "title": "Medoid silhouette equals its definition and lies in [0,1]", "statement": "medoid_silhouette(mat, meds, samples) returns 1 - mean of d1/d2 over all objects, d1 and d2 the distances to the nearest and second nearest medoid (ratio 0 when d1 = 0), the individual values with samples=true, all in [0,1]; 1 for a single medoid.", "quantifier": "all n >= 1, all medoid lists of length 2..n, non-negative matrices, exact number types", "why_tests_cant": "All inputs.", "anchors": ["src/silhouette.rs:medoid_silhouette"]}
{"id": "C24", "title": "FasterMSC/FastMSC/PAMMEDSIL: reported value is the medoid silhouette of the returned medoids", "statement": "For k >= 2, the value returned by fastermsc, fastmsc, pammedsil_swap (and pammedsil when it returns >= 2 medoids) equals what medoid_silhouette returns for the returned medoids, and lies in [0,1].", "quantifier": "all matrix sizes n, all dissimilarity matrices with zero diagonal and non-negative entries, all k, all lists of distinct in-range initial medoids, all maxiter, all exact number types", "why_tests_cant": "Incrementally maintained over unbounded histories with a three-nearest cache.", "anchors": ["src/fastermsc.rs:fastermsc", "src/fastmsc.rs:fastmsc", "src/pammedsil.rs:pammedsil_swap", "src/silhouette.rs:medoid_silhouette"]}
{"id": "C25", "title": "MSC family: nearest assignment, distinct medoids", "statement": "fastermsc, fastmsc and pammedsil_swap assign every object to a nearest returned medoid and keep k distinct in-range medoids; for k >= 3 (and pammedsil_swap for k >= 2) each medoid is in its own cluster. (For fastermsc/fastmsc with k = 2 a cluster can be empty: refuted with duplicate points.)", "quantifier": "all matrix sizes n, all dissimilarity matrices with zero diagonal and non-negative entries, all k, all lists of distinct in-range initial medoids, all maxiter, all exact number types", "why_tests_cant": "Three-nearest cache over all histories and ties.", "anchors": ["src/fastermsc.rs:do_swap", "src/fastermsc.rs:update_third_nearest", "src/fastermsc.rs:do_swap_k2"]}
{"id": "C26", "title": "FasterMSC: never worsens, strict improvement, local optimum", "statement": "The medoid silhouette of the result is at least that of the initial medoids, strictly larger if n_swap > 0; if n_iter < maxiter no single swap of a medoid for a non-medoid gives a larger medoid silhouette, and with maxiter > n^k this is always reached. (Replacing a medoid by a copy of another medoid is not a swap: it could improve the value, refuted.)", "quantifier": "all matrix sizes n, all dissimilarity matrices with zero diagonal and non-negative entries, all k, all lists of distinct in-range initial medoids, all maxiter, all exact number types", "why_tests_cant": "Algebraic exactness of the incremental silhouette change for all inputs.", "anchors": ["src/fastermsc.rs:find_best_swap", "src/fastermsc.rs:update_removal_loss", "src/fastermsc.rs:fastermsc_k2"]}
{"id": "C27", "title": "FastMSC yields the same results as the original PAMMEDSIL", "statement": "From the same initial medoids fastmsc and pammedsil_swap return the same value, medoids, iteration count and swap count, and for k <> 2 also the same assignment. (For k = 2 the assignments may differ on ties: refuted.)", "quantifier": "all matrix sizes n, all dissimilarity matrices with zero diagonal and non-negative entries, all k, all lists of distinct in-range initial medoids, all maxiter, all exact number types", "why_tests_cant": "Documented equivalence of two algorithms on all inputs.", "anchors": ["src/fastmsc.rs:fastmsc", "src/pammedsil.rs:pammedsil_swap"]}
{"id": "C28", "title": "FastMSC/PAMMEDSIL: steepest descent, local optimum", "statement": "fastmsc and pammedsil_swap never return a smaller medoid silhouette than the start, do in each iteration one swap of a medoid for a non-medoid with the largest resulting medoid silhouette, and when n_iter < maxiter no such swap improves it.", "quantifier": "all matrix sizes n, all dissimilarity matrices with zero diagonal and non-negative entries, all k, all lists of distinct in-range initial medoids, all maxiter, all exact number types", "why_tests_cant": "Optimality over all swaps for all inputs.", "anchors": ["src/fastmsc.rs:fastmsc", "src/fastmsc.rs:fastmsc_k2", "src/pammedsil.rs:pammedsil_optimize"]}
{"id": "C29", "title": "MSC family: no panic on valid input", "statement": "On a square matrix with 1 <= k <= n < 2^32 and in-range medoids, fastermsc, pammedsil_swap, pammedsil and dynmsc return normally for every numeric type; fastmsc does too under a zero diagonal (for k = 2 and a non-zero diagonal it panics: refuted).", "quantifier": "all numeric types, all matrices, medoids, maxiter", "why_tests_cant": "Index safety along all executions.", "anchors": ["src/fastermsc.rs", "src/fastmsc.rs", "src/pammedsil.rs", "src/dynmsc.rs"]}
{"id": "C30", "title": "DynMSC: best-of-all-k bookkeeping", "statement": "dynmsc returns one loss per number of medoids from min(max(mink,1),k) to k; the returned loss is the largest of them, is positive, and is the one listed for the number of returned medoids; the medoids are distinct and in range, the assignment complete and in range; the loss for k is that of fastermsc, and with mink >= k dynmsc returns exactly fastermsc's result. For k <= 4 every listed loss (from 2 medoids on) is the medoid silhouette of some set of that many medoids.", "quantifier": "all matrix sizes n, all dissimilarity matrices with zero diagonal and non-negative entries, all k, all lists of distinct in-range initial medoids, all maxiter, all exact number types, all mink", "why_tests_cant": "All histories.", "anchors": ["src/dynmsc.rs:dynmsc"]}
{"id": "C31", "title": "DynMSC: reported loss is the medoid silhouette of the returned medoids", "statement": "The returned loss equals the medoid silhouette of the returned medoids, the assignment assigns every object to a nearest returned medoid, and with enough iterations no swap improves. True if 2 <= k <= 4, or if k or 2 medoids are returned; refuted for k >= 5 (third-nearest bookkeeping after removing a medoid) and for matrices where no candidate has positive silhouette (placeholder assignment).", "quantifier": "all matrix sizes n, all dissimilarity matrices with zero diagonal and non-negative entries, all k, all lists of distinct in-range initial medoids, all maxiter, all exact number types, all mink", "why_tests_cant": "A wrong third-nearest entry only matters several swaps later; the shipped tests use k = 3.", "anchors": ["src/dynmsc.rs:dynmsc", "src/dynmsc.rs:remove_med", "src/dynmsc.rs:update_third_nearest_without_new"]}
{"id": "C32", "title": "PAMMEDSIL BUILD is greedy", "statement": "pammedsil starts its swap phase from a greedy BUILD as in PAM. Refuted: the BUILD loop of pammedsil never considers object 0 for the second and later medoids, so with maxiter = 0 it can return a worse total deviation than pam_build. Proved: the medoids are distinct and valid, loss and assignment are consistent.", "quantifier": "all n, k, matrices", "why_tests_cant": "Greedy optimality over all candidates.", "anchors": ["src/pammedsil.rs:pammedsil_build_initialize"]}
{"id": "C33", "title": "PAMSIL swap: reported value is the silhouette of the returned assignment", "statement": "When pamsil_swap (k >= 2) returns, the reported value is what silhouette(mat, assi) gives for the returned assignment, which is assign_nearest's for the returned medoids (any number type). In exact arithmetic every object is assigned to a nearest medoid, the value is at least the silhouette of the initial clustering (larger, and positive, if a swap was made), it is the silhouette by definition when the medoids are distinct, and fewer than n^k swaps are made. Refuted: the returned medoids need not be distinct even though the initial ones are.", "quantifier": "all numeric types for the consistency part, all matrices, medoids, maxiter", "why_tests_cant": "All histories, stale assignment buffer.", "anchors": ["src/pamsil.rs:pamsil_swap", "src/pamsil.rs:pamsil_optimize"]}
{"id": "C34", "title": "PAMSIL swap: no panic on valid input (refuted)", "statement": "pamsil_swap returns normally on valid input. Refuted: if the initial silhouette is negative and no single swap has a positive silhouette, it writes med[k] out of bounds and panics. Proved: this is the only case, it returns normally in all others (exact arithmetic); it does panic if moreover replacing a medoid by another medoid has no positive silhouette either; and for k = 1 it never panics in any number type.", "quantifier": "all matrices, medoids, maxiter", "why_tests_cant": "Needs a data set where all swaps have non-positive silhouette.", "anchors": ["src/pamsil.rs:pamsil_optimize"]}
{"id": "C35", "title": "PAMSIL swap: local optimum", "statement": "If pamsil_swap stops with n_iter < maxiter, or if maxiter >= n^k, no single swap of a medoid for a non-medoid yields a larger silhouette (as computed by the library; if the returned medoids are distinct, also by the definition of the silhouette), and the value is not negative.", "quantifier": "all matrix sizes n, all dissimilarity matrices with zero diagonal and non-negative entries, all k, all lists of distinct in-range initial medoids, all maxiter, all exact number types", "why_tests_cant": "Quantifies over all swaps and inputs; skip logic uses a stale assignment.", "anchors": ["src/pamsil.rs:pamsil_optimize"]}
{"id": "C36", "title": "PAMSIL: BUILD plus swap is consistent (refuted)", "statement": "pamsil's reported value is the silhouette of its returned assignment and is not worse than that of its BUILD start; medoids are distinct. Refuted: the swap phase starts from an all-zero assignment, so without a swap the value is 0 whatever the silhouette (also after convergence), the first swap may worsen the silhouette, and medoids can coincide. Proved: it never panics; BUILD is greedy with distinct medoids unless the deviation is already 0; objects are assigned to nearest medoids; once a swap was made the value is the silhouette of the returned assignment and positive; on early termination no swap is better.", "quantifier": "all n, k, matrices, maxiter", "why_tests_cant": "Requires specific data.", "anchors": ["src/pamsil.rs:pamsil", "src/pamsil.rs:pamsil_build_initialize"]}
{"id": "C37", "title": "LowerTriangle adapter is a symmetric zero-diagonal matrix without overflow", "statement": "For 1 <= n <= 2^32 and data of length n(n-1)/2, with and without overflow checks: get(x,y) never panics or overflows for x,y < n, is symmetric, zero on the diagonal, reads element x(x-1)/2+y for y < x, and every stored element belongs to exactly one pair x > y; is_square holds exactly when the data has length n(n-1)/2; off-diagonal reads outside panic. Refuted outside these bounds: get(x,x) is not checked against n, n = 0 overflows in is_square, and for n > 2^32 a build without overflow checks accepts data of the wrong length. An n x n Array2 gives its elements and panics outside.", "quantifier": "all n <= 2^32, all data, all x,y, both overflow modes", "why_tests_cant": "Index arithmetic for all sizes up to 2^32.", "anchors": ["src/arrayadapter.rs:LowerTriangle"]}
{"id": "C38", "title": "Results depend only on the matrix entries", "statement": "Running an algorithm or a silhouette on two adapters (e.g. ndarray::Array2 and LowerTriangle) holding the same entries gives identical results in every numeric type (PAMSIL, which can panic: identical results and panics, exact number types).", "quantifier": "all numeric types, all pairs of adapters agreeing on size, squareness and in-range entries", "why_tests_cant": "All inputs.", "anchors": ["src/arrayadapter.rs:ArrayAdapter"]}
{"id": "C39", "title": "first_k gives a valid initialisation", "statement": "first_k(k) is 0..k-1: it has length k, distinct entries, all < n whenever k <= n; hence it meets the preconditions of every algorithm (shown for fasterpam).", "quantifier": "all k, n", "why_tests_cant": "All sizes.", "anchors": ["src/initialization.rs:first_k"]}
{"id": "C40", "title": "Floating point: structure survives rounding", "statement": "For f64 matrices without NaN, infinities and negative values and with zero diagonal (more generally whenever only comparisons are exact), fasterpam, rand_fasterpam, par_fasterpam (any schedule), fastpam1, pam_swap, alternating, the swap phase of pammedsil and (with three or more medoids, or two medoids and no two objects at distance 0) fastermsc and fastmsc still return distinct medoids, assign each object to a truly nearest medoid and each medoid to its own cluster, however rounding affects the swap decisions. The loss of fasterpam and alternating is exactly the left-to-right floating-point sum of the assigned distances (that of par_fasterpam the sum in some bracketing), that of fastermsc exactly 1 - sum/n of the rounded ratios. For fastpam1/pam the loss may be too small (refuted: after the numerical-instability break it is that of the previous medoids). Also refuted in f64: fasterpam never raises its loss; the result of par_fasterpam is independent of the schedule.", "quantifier": "all finite non-negative f64 matrices, all loss types with arbitrary (rounding) arithmetic", "why_tests_cant": "Rounding behaviours cannot be enumerated.", "anchors": ["src/fasterpam.rs:fasterpam", "src/par_fasterpam.rs:par_fasterpam", "src/alternating.rs:alternating", "src/fastpam1.rs:fastpam1", "src/pam.rs:pam_optimize", "src/fastermsc.rs:fastermsc", "src/fastmsc.rs:fastmsc", "src/pammedsil.rs:pammedsil_swap"]}
{"id": "C41", "title": "DynMSC: which medoid is dropped", "statement": "When dynmsc goes from k to k-1 medoids it should drop the medoid whose removal leaves the largest medoid silhouette. Refuted: the code minimises a quantity which is a gain, so (shown for maxiter = 0, where no swap intervenes) the listed loss for k-1 medoids is the smallest medoid silhouette among all ways to drop one medoid.", "quantifier": "all matrix sizes n, all dissimilarity matrices with zero diagonal and non-negative entries, all k >= 3, all lists of distinct in-range initial medoids, all exact number types, all mink", "why_tests_cant": "The optimisation hides a bad start: tests compare only final values after swapping.", "anchors": ["src/dynmsc.rs:dynmsc", "src/dynmsc.rs:remove_med", "src/fastermsc.rs:update_removal_loss"]}
{"id": "C42", "title": "Debug assertions never fail", "statement": "In debug builds with the cargo feature 'assertions', the internal checks (every cached nearest, second and third nearest distance equals the matrix entry of the named medoid, in ascending order) hold on every dissimilarity matrix, so that fasterpam, rand_fasterpam, par_fasterpam, fastpam1, pam_swap, pam, fastermsc, fastmsc and, for k other than 2, pammedsil_swap and dynmsc return exactly what they return in release builds. Refuted for k = 2 in pammedsil_swap and dynmsc (and pammedsil when BUILD finds two medoids): there is no third nearest medoid, the check indexes the medoids with u32::MAX and panics on every input.", "quantifier": "all matrix sizes, all dissimilarity matrices with exact comparisons (integers, rationals, finite f64), all loss types with arbitrary arithmetic, all in-range medoid lists, all schedules and orders", "why_tests_cant": "Tests are run without the feature, and check a handful of matrices.", "anchors": ["src/util.rs:debug_assert_assignment", "src/util.rs:debug_assert_assignment_th", "src/dynmsc.rs:dynmsc", "src/pammedsil.rs:pammedsil_optimize"]}
{"id": "C43", "title": "Machine integers do not overflow", "statement": "If every dissimilarity is an integer of at most m and 3*n*m does not exceed the largest value of the signed loss type (w bits, two's complement, wrapping), then fasterpam, rand_fasterpam, par_fasterpam, fastpam1, pam_swap, alternating, pam_build and pam return exactly what they return with unbounded integers (same medoids, assignment, counters and loss): no sum, difference or gain leaves the range, not even in intermediate values. In particular the exact statements on losses and local optima hold for i32 and i64. Refuted without the bound: with i8 losses and dissimilarities of 100, pam_swap reports the loss -56 for a clustering which costs 100.", "quantifier": "all word sizes, all matrix sizes, all integer dissimilarity matrices within the bound, all medoid lists, iteration limits, orders and schedules; any loss type which represents the integers up to the bound", "why_tests_cant": "Overflow of intermediate gains needs adversarial sizes and values near the limit; tests use small numbers.", "anchors": ["src/fasterpam.rs:fasterpam", "src/par_fasterpam.rs:par_fasterpam", "src/fastpam1.rs:fastpam1", "src/pam.rs:pam_swap", "src/pam.rs:pam_build", "src/alternating.rs:alternating"]}
{"id": "C44", "title": "No rounding on integer-valued or fixed-point binary64 data", "statement": "If all dissimilarities are binary64 numbers that are multiples of 2^g with values up to m*2^g and 3*n*m <= 2^53 (for instance integers, or integer dissimilarities with f64 losses), no operation rounds: (rand_)fasterpam returns a local optimum whose loss is exactly the total deviation and the assigned cost, never above the initial loss; par_fasterpam agrees with it under every schedule; fastpam1 and pam_swap coincide and are exact; alternating is exact, monotone on symmetric data and ends in a fixed point; BUILD is exactly greedy. (C40 refutes these for data that does round.)", "quantifier": "all exponents -1074 <= g <= 970, all matrix sizes, all binary64 matrices on the grid within the bound, all medoid lists, iteration limits, permutations and schedules", "why_tests_cant": "Whether rounding occurs depends on all intermediate sums of all runs, and parallel schedules cannot be enumerated.", "anchors": ["src/fasterpam.rs:fasterpam", "src/par_fasterpam.rs:par_fasterpam", "src/fastpam1.rs:fastpam1", "src/pam.rs:pam", "src/alternating.rs:alternating"]}
{"id": "C45", "title": "Five times the optimum on metric data", "statement": "If the dissimilarities are a metric (symmetric, triangle inequality), then a run of fasterpam, rand_fasterpam, par_fasterpam, fastpam1, pam_swap or pam that stops before the iteration limit (or whose limit exceeds n^k) has a loss of at most five times the total deviation of every choice of at most k medoids, in particular of the global optimum; likewise in binary64 for values on a grid (C44). Refuted: the optimum itself is not always found (loss 5, optimum at most 3 on a metric); without the triangle inequality there is no bound (loss 2, optimum 0); alternating has no such bound on metric data (loss 10, optimum at most 1).", "quantifier": "all metrics on any number of objects, all k, all initial medoids, orders and schedules, all competing medoid sets", "why_tests_cant": "The optimum ranges over all subsets of k objects, and the guarantee concerns every local optimum of every metric.", "anchors": ["src/fasterpam.rs:fasterpam", "src/fasterpam.rs:rand_fasterpam", "src/par_fasterpam.rs:par_fasterpam", "src/fastpam1.rs:fastpam1", "src/pam.rs:pam", "src/alternating.rs:alternating"]}
{"id": "C46", "title": "Silhouettes stay in range under rounding", "statement": "In binary64, whatever is rounded: silhouette and par_silhouette of a non-empty assignment return finite numbers in [-1, 1], both the average and every sample, for all matrices whose entries are in [0, 2^970]; medoid_silhouette, and the value reported by fastermsc for three or more medoids, are in [0, 1] and at most (n+7)/2^54 away from the exact average medoid silhouette of the medoids, and the samples of medoid_silhouette at most 2^-52 away from theirs, for all finite non-negative matrices. Refuted: with entries of 2^1023 silhouette is NaN, and so it is for an empty assignment.", "quantifier": "all finite f64 matrices (and all matrices whose entries convert exactly), all assignments, all medoids", "why_tests_cant": "Rounding errors depend on every bit of every entry; a value just above 1 would appear on inputs no test contains.", "anchors": ["src/silhouette.rs:silhouette", "src/silhouette.rs:par_silhouette", "src/silhouette.rs:medoid_silhouette", "src/fastermsc.rs:fastermsc"]}
{"id": "C47", "title": "Rounding error of the reported loss", "statement": "For two or more medoids and binary64 losses, with entries in [0, 2^970] that convert exactly, the loss reported by fasterpam, rand_fasterpam, par_fasterpam (any schedule, any shape of the parallel sum) and alternating is finite and differs from the total deviation of the returned medoids by at most (n-1)/2^52 of it. Refuted: it is not always exact.", "quantifier": "all such matrices, all initial medoids, orders, iteration limits and schedules", "why_tests_cant": "The error bound covers every sequence of roundings and every bracketing of the parallel sum.", "anchors": ["src/fasterpam.rs:fasterpam", "src/fasterpam.rs:rand_fasterpam", "src/par_fasterpam.rs:par_fasterpam", "src/alternating.rs:alternating"]}
{"id": "C48", "title": "Silhouette-based algorithms: documented panics happen", "statement": "fastermsc, fastmsc, dynmsc, pammedsil_swap, pammedsil, pamsil_swap and pamsil panic with the documented message when the matrix is not square, when k = 0 and when k > n; conversely they return a result only for a square matrix and 1 <= k <= n. silhouette, par_silhouette and medoid_silhouette panic when the matrix is not square. (Refuted for k = 1 in fastermsc, fastmsc and dynmsc, which check nothing there, and for k = 2 with twice the same medoid in fastermsc and fastmsc, which do not compare k with n there; with distinct medoids they panic with another message.)", "quantifier": "all numeric types (no laws), all matrices, medoid lists and label vectors", "why_tests_cant": "Documented contract for all invalid inputs; the k = 1 and k = 2 fast paths bypass the common checks.", "anchors": ["src/fastermsc.rs:initial_assignment", "src/fastermsc.rs:initial_assignment_k2", "src/dynmsc.rs:dynmsc", "src/pammedsil.rs:pammedsil", "src/pamsil.rs:pamsil", "src/silhouette.rs:silhouette", "src/silhouette.rs:medoid_silhouette", "src/par_silhouette.rs:par_silhouette"]}
{"id": "C49", "title": "All swap algorithms have the same fixed points", "statement": "For k >= 2, or symmetric dissimilarities, and maxiter >= 1: if no single swap improves the given medoids, fasterpam, rand_fasterpam (any order), par_fasterpam (any order and schedule), fastpam1 and pam_swap return exactly these medoids after one iteration with 0 swaps and their total deviation; otherwise each of them does at least one swap and returns strictly better medoids. Hence once one of them has stopped before maxiter, restarting any of them from its result changes neither medoids nor loss.", "quantifier": "all exact numeric types, all dissimilarity matrices, all medoids, orders, schedules and maxiter", "why_tests_cant": "Agreement of five algorithms on every input; tests compare a few fixed examples.", "anchors": ["src/fasterpam.rs:fasterpam", "src/fasterpam.rs:rand_fasterpam", "src/par_fasterpam.rs:par_fasterpam", "src/fastpam1.rs:fastpam1", "src/pam.rs:pam_swap"]}
{"id": "C50", "title": "Alternating never improves a swap optimum", "statement": "On symmetric data alternating, started from medoids which no single swap improves, returns them after one iteration; in particular after fasterpam, rand_fasterpam, par_fasterpam, fastpam1 or pam_swap stopped before maxiter. The converse is refuted: on points of a line alternating stops in medoids which a swap improves.", "quantifier": "all exact numeric types, all symmetric dissimilarity matrices, all medoids, orders, schedules and maxiter", "why_tests_cant": "Relates the local optima of two algorithms for all inputs.", "anchors": ["src/alternating.rs:alternating", "src/fasterpam.rs:fasterpam", "src/fastpam1.rs:fastpam1", "src/pam.rs:pam_swap"]}
{"id": "C51", "title": "All medoid silhouette algorithms have the same fixed points", "statement": "For k >= 2 and maxiter >= 1: if no single swap enlarges the medoid silhouette of the given medoids, fastermsc, fastmsc and pammedsil_swap return exactly these medoids after one iteration with 0 swaps and their medoid silhouette; otherwise each of them does at least one swap and returns strictly better medoids. Hence once one of them has stopped before maxiter, restarting any of them from its result changes nothing.", "quantifier": "all exact numeric types, all dissimilarity matrices, all medoids and maxiter", "why_tests_cant": "Agreement of three algorithms (and the k = 2 fast paths) on every input.", "anchors": ["src/fastermsc.rs:fastermsc", "src/fastmsc.rs:fastmsc", "src/pammedsil.rs:pammedsil_swap", "src/fastermsc.rs:fastermsc_k2", "src/fastmsc.rs:fastmsc_k2"]}
{"id": "C52", "title": "FasterPAM is first-improvement local search", "statement": "For k >= 2 the medoids, the number of swaps and the number of iterations returned by fasterpam are those of the plain search which goes through the objects in order, tries all swaps of a medoid for the object, does the best one if it lowers the total deviation (ties: first position), and stops after a pass without a swap or maxiter passes. The same holds for rand_fasterpam and par_fasterpam with the shuffled order, whatever the schedule. The tables of nearest medoids, removal losses and the early exit after the last swap have no influence.", "quantifier": "all exact numeric types, all dissimilarity matrices, all medoids, orders, schedules and maxiter", "why_tests_cant": "Equality of the complete result with an independent quadratic-cost search for every input, including all ties.", "anchors": ["src/fasterpam.rs:fasterpam", "src/fasterpam.rs:rand_fasterpam", "src/fasterpam.rs:do_swap", "src/fasterpam.rs:find_best_swap", "src/par_fasterpam.rs:par_fasterpam"]}
{"id": "C53", "title": "FastPAM1 and PAM are steepest descent from the greedy start", "statement": "For k >= 2 the medoids, swaps and iterations returned by fastpam1 and pam_swap are those of the plain search which evaluates all swaps, does the best one (ties: smallest new object, then first position) and stops when none lowers the total deviation or after maxiter iterations. pam_build returns the best single medoid (smallest index on ties) followed by the best further medoids, as long as one lowers the total deviation; pam is steepest descent from there.", "quantifier": "all exact numeric types, all dissimilarity matrices, all medoids, k and maxiter", "why_tests_cant": "Equality of the complete result with an independent search for every input, including all ties.", "anchors": ["src/fastpam1.rs:fastpam1", "src/pam.rs:pam_swap", "src/pam.rs:pam_build_initialize", "src/pam.rs:pam_build", "src/pam.rs:pam"]}
{"id": "C54", "title": "The medoid silhouette algorithms are plain searches", "statement": "For k >= 2, including the special code for k = 2, fastermsc returns the medoids, swaps and iterations of first-improvement search, and fastmsc and pammedsil_swap those of best-improvement search for the average medoid silhouette; pammedsil starts with the greedy medoids for the total deviation, where object 0 is never a candidate after the first medoid.", "quantifier": "all exact numeric types with exact division, all dissimilarity matrices, all medoids, k and maxiter", "why_tests_cant": "Equality of the complete result with an independent search for every input, including all ties.", "anchors": ["src/fastermsc.rs:fastermsc", "src/fastmsc.rs:fastmsc", "src/pammedsil.rs:pammedsil_swap", "src/pammedsil.rs:pammedsil", "src/pammedsil.rs:pammedsil_build_initialize"]}
{"id": "C55", "title": "Alternating is Lloyd's iteration; PAMSIL starts greedily", "statement": "The medoids and iterations returned by alternating are those of the plain iteration: assign every object to the nearest medoid (a medoid to itself, ties to the first), replace every medoid by the member of its cluster with the smallest sum of dissimilarities (ties: the old medoid, then the smallest index), until nothing changes or maxiter; the returned assignment is the one of the final medoids. The initialization of pamsil always chooses k medoids, each the best further one.", "quantifier": "all exact numeric types, all dissimilarity matrices, all medoids, k and maxiter", "why_tests_cant": "Equality of the complete result with an independent computation for every input, including all ties.", "anchors": ["src/alternating.rs:alternating", "src/alternating.rs:assign_nearest", "src/util.rs:choose_medoid_within_partition", "src/pamsil.rs:pamsil_build_initialize"]}
{"id": "C56", "title": "Results do not depend on the unit or on the exact numeric type", "statement": "If all dissimilarities are multiplied by a positive constant c, possibly changing the numeric types, then fasterpam, rand_fasterpam, par_fasterpam, fastpam1, pam_swap, pam and alternating return the same medoids, swaps and iterations, and the loss is multiplied by c; fastermsc, fastmsc, pammedsil_swap and pammedsil also return the same medoids, swaps and iterations, and the medoid silhouette does not change (k >= 2). The same holds for dynmsc with two to four initial medoids.", "quantifier": "all pairs of exact numeric types, all dissimilarity matrices, all c > 0, all medoids, k, orders, schedules and maxiter", "why_tests_cant": "A relation between two runs on arbitrary inputs of arbitrary scale.", "anchors": ["src/fasterpam.rs:fasterpam", "src/fasterpam.rs:rand_fasterpam", "src/par_fasterpam.rs:par_fasterpam", "src/fastpam1.rs:fastpam1", "src/pam.rs:pam", "src/alternating.rs:alternating", "src/fastermsc.rs:fastermsc", "src/fastmsc.rs:fastmsc", "src/pammedsil.rs:pammedsil", "src/dynmsc.rs:dynmsc"]}
{"id": "C57", "title": "Relabelling the objects relabels the result", "statement": "If the objects are renumbered by a permutation, and the initial medoids and the processing order are renumbered accordingly, rand_fasterpam and par_fasterpam (k >= 2) do the same swaps: the medoids are the renumbered ones, and swaps, iterations and loss are equal.", "quantifier": "all exact numeric types, all dissimilarity matrices, all permutations, medoids, orders, schedules and maxiter", "why_tests_cant": "A relation between two runs for every permutation of every input.", "anchors": ["src/fasterpam.rs:rand_fasterpam", "src/par_fasterpam.rs:par_fasterpam"]}
{"id": "C58", "title": "Interrupted runs can be resumed", "statement": "For fasterpam, rand_fasterpam, fastpam1, pam_swap, fastermsc, fastmsc, pammedsil_swap (k >= 2) and alternating: a run with maxiter = a followed by a run with maxiter = b from the medoids found has the same medoids, the same loss and together the same number of swaps as one run with maxiter = a + b; the iterations add up as well, except that the second run needs one iteration if the first one had finished.", "quantifier": "all exact numeric types, all dissimilarity matrices, all medoids, orders, a and b", "why_tests_cant": "A relation between three runs for all inputs and all points of interruption.", "anchors": ["src/fasterpam.rs:fasterpam", "src/fasterpam.rs:rand_fasterpam", "src/fastpam1.rs:fastpam1", "src/pam.rs:pam_swap", "src/fastermsc.rs:fastermsc", "src/fastmsc.rs:fastmsc", "src/pammedsil.rs:pammedsil_swap", "src/alternating.rs:alternating"]}
{"id": "C59", "title": "DynMSC is first-improvement search followed by dropping the worst medoid", "statement": "With two to four initial medoids dynmsc does first-improvement search for the average medoid silhouette, drops the first medoid whose removal gives the smallest medoid silhouette (the last medoid takes its position), searches again, and so on down to max(minimum_k, 2) medoids. The medoids returned are those at the end of the first best search, swaps and iterations are the totals over all searches, the loss for every number of medoids is the medoid silhouette at the end of that search (0 for one medoid). With five initial medoids this is false: the medoids returned may be worse.", "quantifier": "all exact numeric types with exact division, all dissimilarity matrices, two to four distinct medoids, all minimum_k and maxiter", "why_tests_cant": "Equality of the complete result with an independent search for every input, including all ties, across the removals.", "anchors": ["src/dynmsc.rs:dynmsc", "src/dynmsc.rs:remove_med", "src/dynmsc.rs:update_third_nearest_without_new", "src/fastermsc.rs:fastermsc_k2"]}
{"id": "C60", "title": "The swap algorithms stop by themselves in binary64", "statement": "With finite, non-negative binary64 dissimilarities (none a negative zero) or integer dissimilarities and binary64 losses, fasterpam, rand_fasterpam, fastpam1, the swap phase of PAM, and (for binary64 dissimilarities, and for integer dissimilarities up to 2^53) fastermsc, fastmsc and the swap phase of PAMMEDSIL stop after at most n^k iterations, and PAM and PAMMEDSIL with BUILD after at most n^k + 1 iterations, whatever rounding does and even if sums overflow: every larger limit on the number of iterations gives the same result. This is false of alternating, which can go back and forth between two sets of medoids for ever, even for a metric, and false of fasterpam if a dissimilarity is NaN.", "quantifier": "all matrices of finite non-negative binary64 dissimilarities, not necessarily symmetric, with zero diagonal; all initial medoids, not necessarily distinct; all limits on the number of iterations", "why_tests_cant": "A run that does not stop needs a special combination of roundings; no finite number of runs excludes it.", "anchors": ["src/fasterpam.rs:fasterpam", "src/fasterpam.rs:rand_fasterpam", "src/fastpam1.rs:fastpam1", "src/pam.rs:pam_swap", "src/pam.rs:pam", "src/fastermsc.rs:fastermsc", "src/fastmsc.rs:fastmsc", "src/pammedsil.rs:pammedsil", "src/alternating.rs:alternating"]}
{"id": "C61", "title": "How good the medoids are at which the swap algorithms stop in binary64", "statement": "With binary64 losses and entries up to mx, let e = n^2 mx / 2^46. If fastpam1 or the swap phase of PAM stops before the limit on the number of iterations, then there are medoids which no swap improves by more than e, such that the returned medoids are these or one swap away from these, with total deviations at most e apart, and the returned loss is within e of it; hence on metric data the result is at most 5 times the optimum plus (k+1) e; and with a limit above n^k this always happens. The medoids returned are worse than those given by at most 3 e. For fasterpam with every order of candidates: the medoids returned are worse than those given by at most (n+1) e, no swap improves them by more than e if no swap was made, and when it stops before the limit then either no swap improves the returned medoids by more than e or the last pass did not lower the computed loss. It is false that the returned medoids themselves are always nearly optimal: there is a metric on four (PAM: five) objects for which fasterpam and fastpam1 stop after one swap that changes nothing, while another swap lowers the total deviation by a sixth.", "quantifier": "all matrices of finite non-negative dissimilarities with zero diagonal (f64, or a type which converts exactly), not necessarily symmetric, up to 2^970; all at least two initial medoids; all limits; all candidate orders", "why_tests_cant": "The error bound is for all inputs and sizes, and the roundings that make the algorithms stop early occur only for special data.", "anchors": ["src/fastpam1.rs:fastpam1", "src/pam.rs:pam_swap", "src/pam.rs:find_best_swap_pam", "src/fasterpam.rs:fasterpam", "src/fasterpam.rs:rand_fasterpam", "src/fasterpam.rs:find_best_swap", "src/fasterpam.rs:update_removal_loss"]}
{"id": "C62", "title": "par_fasterpam in binary64: quality and termination for every scheduling", "statement": "With binary64 losses and entries up to mx, let e = n^2 mx / 2^46. For every splitting of the work into tasks and every way in which the parallel sums are bracketed, par_fasterpam stops by itself: beyond (5n+1) n^k iterations the limit no longer matters. The medoids it returns are worse than those given by at most (n+1) e in total deviation; no swap improves them by more than e if no swap was made; and when it stops before the limit then either no swap improves the returned medoids by more than e (so that on metric data they are at most 5 times the optimum plus (k+1) e), or the last pass did not lower the computed loss.", "quantifier": "all matrices of finite non-negative dissimilarities with zero diagonal (f64, or a type which converts exactly), not necessarily symmetric, up to 2^970; all initial medoids; all limits; all candidate orders; all schedulings, which may differ from search to search", "why_tests_cant": "The scheduling is chosen by the thread pool and the roundings depend on it; a test sees a few of the possible schedulings, and cannot tell an endless run from a long one.", "anchors": ["src/par_fasterpam.rs:par_fasterpam", "src/par_fasterpam.rs:par_find_best_swap", "src/par_fasterpam.rs:par_do_swap", "src/par_fasterpam.rs:par_initial_assignment", "src/fasterpam.rs:update_removal_loss"]}
{"id": "C63", "title": "The medoid-silhouette algorithms in binary64: quality of the returned medoids and silhouette", "statement": "With binary64 losses let e = n / 2^44. fastmsc, PAMMEDSIL's swap phase and fastermsc return medoids whose average medoid silhouette is at most 2e (fastermsc: (n+1) e) below that of the given medoids, and a silhouette which is within 2e of that of the returned medoids. When fastmsc or PAMMEDSIL stops before the iteration limit, the returned medoids are, or differ by one swap of nearly the same silhouette from, medoids which no swap with another object improves by more than e, and the returned silhouette is within e of that of the latter. fastermsc returns medoids which no swap improves by more than e when it made no swap, and when it stops before the limit either this holds or its last pass did not raise the computed silhouette. A limit above n^k suffices for the three to stop.", "quantifier": "all matrices of finite non-negative dissimilarities with zero diagonal (f64 up to 2^1022, i32 up to 2^52, or any type which converts exactly and adds with one rounding), not necessarily symmetric; all initial medoids, k >= 2, including the special versions for k = 2; all limits", "why_tests_cant": "The roundings differ from input to input; a test compares against expected numbers with a tolerance chosen by hand, on a few inputs, and does not check that no swap is better.", "anchors": ["src/fastmsc.rs:fastmsc", "src/fastmsc.rs:fastmsc_k2", "src/fastermsc.rs:fastermsc", "src/fastermsc.rs:fastermsc_k2", "src/fastermsc.rs:find_best_swap", "src/fastermsc.rs:find_best_swap_k2", "src/fastermsc.rs:update_removal_loss", "src/fastermsc.rs:do_swap_k2", "src/pammedsil.rs:pammedsil_swap", "src/pammedsil.rs:find_best_swap_pammedsil", "src/pammedsil.rs:pammedsil_optimize"]}
{"id": "C64", "title": "BUILD, PAM with BUILD, a single medoid and the alternating algorithm in binary64", "statement": "With binary64 losses and entries up to mx (at most 2^970), let e = n^2 mx / 2^46. pam_build returns distinct medoids, k of them unless their total deviation is exactly 0; each one lowers the total deviation as much as any other object could, up to e; the loss is within e of the total deviation and every object is assigned to a nearest medoid. pam returns medoids at most 3e worse than those of BUILD and, when it stops before the iteration limit, ones from which no swap gains more than e (at once or one swap of nearly equal total deviation away; within five times the optimum up to rounding for a metric); a limit above n^k + 1 suffices. With one medoid every algorithm (pam included) returns an object whose sum of dissimilarities is at most e above that of any other object, and a loss within e of it. Exactly this fails: on a metric example the algorithms leave the best medoid for a worse one. alternating returns a nearest assignment, increases the total deviation by at most e per cluster and iteration (symmetric data), and when it stops before the limit every medoid is the most central object of its cluster up to e.", "quantifier": "all matrices of finite non-negative dissimilarities with zero diagonal (f64, i32, or any type which converts exactly and adds with one rounding), not necessarily symmetric unless stated; all k, all initial medoids, all limits", "why_tests_cant": "The roundings differ from input to input; a test compares a few results with a tolerance chosen by hand, and does not check that the chosen objects are the best up to rounding.", "anchors": ["src/pam.rs:pam_build", "src/pam.rs:pam_build_initialize", "src/pam.rs:pam", "src/pam.rs:pam_optimize", "src/util.rs:choose_medoid_within_partition", "src/alternating.rs:alternating", "src/fasterpam.rs:fasterpam"]}
{"id": "C65", "title": "PAMMEDSIL with its own initial medoids and DynMSC in binary64", "statement": "With binary64 losses and e = n / 2^44: pammedsil starts from distinct medoids (entries up to mx, at most 2^970), each of which lowers the total deviation as much as any object other than 0 could, up to n^2 mx / 2^46 (the first one as much as any object); there are k of them unless all other objects but 0 are at distance 0. With two or more, it returns medoids whose medoid silhouette is at most 2e lower, the returned value is within 2e of it, and when it stops before the iteration limit no swap gains more than e (at once or one swap of nearly equal silhouette away). dynmsc always returns, from two or more initial medoids, a positive loss which is not NaN, which is the one listed for the returned number of medoids, and above which no listed loss lies; the assignment has an entry below the number of medoids for every object. With at most four initial medoids, and whenever no medoid was dropped or two are left, the loss is within e of the medoid silhouette of the returned medoids, the assignment is to a nearest medoid, and every listed loss is within e of the silhouette of some medoids, which is at most 2e above the returned one. The medoid dropped first is, up to e, the one whose removal leaves the least silhouette.", "quantifier": "all matrices of finite non-negative dissimilarities with zero diagonal (f64, i32, or any type which converts exactly), not necessarily symmetric; all numbers of medoids, all initial medoids, all limits", "why_tests_cant": "The roundings differ from input to input, and a NaN loss or a listed loss above the returned one would show up on special data only.", "anchors": ["src/pammedsil.rs:pammedsil", "src/pammedsil.rs:pammedsil_build_initialize", "src/pammedsil.rs:pammedsil_optimize", "src/dynmsc.rs:dynmsc", "src/fastermsc.rs:fastermsc_k2"]}
{"id": "C66", "title": "The silhouette and PAMSIL in binary64", "statement": "With binary64 losses and entries which are 0 or between 2^-900 and 2^970: for labels 0..K-1 (K at least 2) silhouette returns a value in [-1,1] within n / 2^48 of the average silhouette by definition, and values in [-1,1] within (4n+5) / 2^52 of the silhouettes of the objects, and par_silhouette returns the same value; with entries near the smallest number this fails (an error of one half is possible). With e = n / 2^48: pamsil_swap assigns every object to a nearest medoid, its value is at most e below the silhouette of the initial clustering and, if the medoids are distinct, within e of the silhouette of the returned one; it makes fewer than n^k swaps; when it stops before the iteration limit or the limit is at least n^k, the value is non-negative, no swap has a larger computed silhouette, and none a silhouette above the value by more than e. It returns unless the initial silhouette is below e and no swap has one above e. pamsil always returns; its initial medoids are greedy up to n^2 mx / 2^46 (entries up to mx); the value is 0 if no swap was made, else positive and as for pamsil_swap.", "quantifier": "all matrices of finite non-negative dissimilarities (zero diagonal for PAMSIL) in the given range (f64, i32, or any type which converts exactly), not necessarily symmetric; all clusterings, initial medoids, numbers of medoids and limits", "why_tests_cant": "The means, quotients and sums round differently for every input; a test compares with a tolerance chosen by hand for a few inputs, and cannot show how the error grows with n or which range of entries is safe.", "anchors": ["src/silhouette.rs:silhouette", "src/par_silhouette.rs:par_silhouette", "src/pamsil.rs:pamsil", "src/pamsil.rs:pamsil_swap", "src/pamsil.rs:pamsil_optimize", "src/pamsil.rs:pamsil_build_initialize"]}
{"id": "C67", "title": "f32 dissimilarities with f64 losses", "statement": "A finite f32 converts to an f64 of the same value, so with f32 dissimilarities and f64 losses the statements of C60 to C62 and C64 to C66 hold for every matrix of finite non-negative entries, with mx the greatest entry and no limit on the size of the entries: quality and stopping of fasterpam, par_fasterpam, fastpam1, pam, BUILD, alternating and the one-medoid search up to multiples of n^2 mx / 2^46; the silhouette and pamsil up to n / 2^48; pammedsil and dynmsc up to n / 2^44; and all swap algorithms stop by themselves within n^k iterations. fastmsc and fastermsc add two dissimilarities in f32 before dividing: with entries up to 2^126 what they return is nearly optimal in the sense of C63 with error n / 2^44 + 2^-17, and the same holds for the medoid dynmsc drops first; with entries near the largest f32 the sum overflows and both can stop although a swap would raise the silhouette by 2/15.", "quantifier": "all matrices of finite non-negative f32 dissimilarities with zero diagonal (no negative zeros for the number of iterations), all initial medoids, numbers of medoids, orders, schedulings and limits", "why_tests_cant": "The error of f32 sums and the point where they overflow depend on the data; tests with ordinary distances never come near the end of the range, and a comparison with a tolerance does not show how far from optimal a stopped run may be.", "anchors": ["src/fastermsc.rs:find_best_swap", "src/fastmsc.rs:fastmsc", "src/fasterpam.rs:fasterpam", "src/pam.rs:pam", "src/silhouette.rs:silhouette", "src/pamsil.rs:pamsil", "src/dynmsc.rs:dynmsc", "src/pammedsil.rs:pammedsil"]}
{"id": "C68", "title": "f32 losses", "statement": "With losses of type f32, dissimilarities which convert exactly (f32 itself, or non-negative integers up to 65535), at most 2^18 objects, entries at most mx <= 2^107 and e = n^2 mx / 2^17: fastpam1, pam_swap and pam return medoids at most 3e worse than the initial ones, and when they stop before the iteration limit the medoids are, or are one swap away from and within e of, medoids no swap of which lowers the total deviation by more than e, the loss being within e of that total deviation; on metric data they are within a factor of five of the optimum up to (k+1)e. fasterpam and par_fasterpam, for every order and scheduling, return medoids at most (n+1)e worse than the initial ones, which are locally optimal up to e unless the last pass did not lower the computed loss. The medoids of BUILD are greedy up to e; the one-medoid search is optimal up to e; alternating assigns every object to a nearest medoid and its medoids are best for their clusters up to e. The swap algorithms stop by themselves within n^k iterations (n^k+1 for pam, (5n+1)n^k for par_fasterpam), the sequential ones whatever the size of the entries. On a metric on four objects fasterpam and fastpam1 stop at medoids which one swap would improve by three tenths; near the largest f32 fasterpam returns an infinite loss and medoids which one swap would improve by five eighths.", "quantifier": "all matrices of dissimilarities with zero diagonal in the given range, not necessarily symmetric, all initial medoids, numbers of medoids, orders, schedulings and limits", "why_tests_cant": "The rounding errors of f32 sums depend on the data, the order of the objects and the scheduling; tests use f64 or integer losses on a few small inputs and cannot bound how far from optimal a stopped run may be.", "anchors": ["src/fasterpam.rs:fasterpam", "src/fasterpam.rs:rand_fasterpam", "src/par_fasterpam.rs:par_fasterpam", "src/fastpam1.rs:fastpam1", "src/pam.rs:pam", "src/pam.rs:pam_swap", "src/pam.rs:pam_build", "src/alternating.rs:alternating"]}
{"id": "C69", "title": "dynmsc stops by itself", "statement": "With losses of type f64 and finite non-negative dissimilarities of type f64 or f32 (no negative zero) or integers up to 2^53, dynmsc stops by itself although its losses are rounded: for n objects and k initial medoids, every iteration limit from n^k on (from n^(2n) on if k >= 5, where the cached medoids may be wrong) gives one and the same result, and this result reports at most max(1, k-1) times that many iterations.", "quantifier": "all matrices with zero diagonal, not necessarily symmetric, all initial medoids (also repeated ones), all minimum numbers of medoids and all iteration limits", "why_tests_cant": "An endless alternation between medoid sets of equal rounded loss needs particular data; tests run with a fixed limit and cannot tell a search which stopped from one which was cut off.", "anchors": ["src/dynmsc.rs:dynmsc", "src/fastermsc.rs:do_swap", "src/fastermsc.rs:find_best_swap"]}
{"id": "C70", "title": "machine types for the dissimilarities", "statement": "On machine integers of any width, signed or unsigned, and with any loss type, all functions except fastermsc, fastmsc and dynmsc give exactly the result (or panic) they give on the same matrix with unbounded integers, whatever the entries; fastermsc, fastmsc and dynmsc do so if twice every entry is representable. With f32 dissimilarities (infinities and NaN included) and f64 losses, all functions except these three give exactly what they give on the matrix converted to f64. With w-bit integers for both types nothing overflows in the PAM family and alternating if 3 n times the largest entry is representable. With i32 entries up to 2100000000 fastmsc and fastermsc perform a swap which lowers the medoid silhouette from 32/35 to 22/35, and fastmsc reports 32/35.", "quantifier": "all matrices, inputs, orders, schedulings, numbers of bits and loss types", "why_tests_cant": "Tests use small integers and f64; that an intermediate sum of two dissimilarities wraps around shows only on entries above half of the range, and the equality of whole runs has to be shown for all inputs.", "anchors": ["src/fastermsc.rs:find_best_swap", "src/fastmsc.rs:fastmsc", "src/fastermsc.rs:fastermsc", "src/dynmsc.rs:dynmsc", "src/fasterpam.rs:fasterpam", "src/pam.rs:pam", "src/alternating.rs:alternating", "src/silhouette.rs:silhouette", "src/silhouette.rs:medoid_silhouette", "src/pammedsil.rs:pammedsil", "src/pamsil.rs:pamsil"]}
{"id": "C71", "title": "rounding changes nothing without near ties", "statement": "If no swap changes the total deviation by as little as n^2 * mx * 2^-46 (mx the largest entry), fasterpam, rand_fasterpam and par_fasterpam with binary64 losses perform exactly the swaps of the first-improvement search carried out in exact arithmetic, for every order of the candidates and every scheduling: they return its medoids, number of swaps and number of iterations, a loss within this error, and when they end before the limit no swap lowers the exact total deviation. If no two sets of k medoids have total deviations as near as this, fastpam1 and the swap phase of PAM do what best-improvement search does; if this holds for all sizes up to k < n, BUILD returns the greedy initialization, which has k medoids, and pam does best-improvement search from there. Hence they agree with runs of the same functions in an exact numeric type on the same values. The same holds for f32 losses with 2^-17 in place of 2^-46. With ties the rounding errors decide: there is a metric on four objects where the algorithms perform a swap although no swap is an improvement.", "quantifier": "all matrices, initial medoids, orders, schedulings, numbers of iterations, and exact numeric types to compare with", "why_tests_cant": "A test compares a few runs with a reference; that rounding never changes a decision on all inputs without near ties needs the error bounds of all sums involved.", "anchors": ["src/fasterpam.rs:fasterpam", "src/fasterpam.rs:rand_fasterpam", "src/par_fasterpam.rs:par_fasterpam", "src/fastpam1.rs:fastpam1", "src/pam.rs:pam_swap", "src/pam.rs:pam_build", "src/pam.rs:pam"]}
{"id": "C72", "title": "medoid silhouette: rounding changes nothing without near ties", "statement": "If no swap changes the average medoid silhouette by as little as n * 2^-44, fastermsc with binary64 losses performs exactly the swaps of the first-improvement search carried out in exact arithmetic: it returns its medoids, number of swaps and number of iterations, a silhouette within this error, and when it ends before the limit no swap raises the exact silhouette. If no two sets of k medoids have silhouettes as near as this, fastmsc and the swap phase of PAMMEDSIL do what best-improvement search does; if moreover no two sets of at most k <= n - 2 medoids have total deviations as near as n^2 * mx * 2^-46, pammedsil does it from the greedy initial medoids (which leave out object 0 after the first one). This covers the separate code for two medoids, and dissimilarities of type f32 with an error larger by 2^-17. Hence the functions agree with runs in an exact numeric type on the same values. With ties the rounding errors decide: there is an integer metric on four objects where all three perform a swap although no swap is an improvement, and one where fastmsc and PAMMEDSIL come to different medoids.", "quantifier": "all matrices, initial medoids, numbers of iterations, and exact numeric types to compare with", "why_tests_cant": "A test compares a few runs with a reference; that rounding never changes a decision on all inputs without near ties needs the error bounds of all sums and quotients involved.", "anchors": ["src/fastermsc.rs:fastermsc", "src/fastermsc.rs:fastermsc_k2", "src/fastmsc.rs:fastmsc", "src/fastmsc.rs:fastmsc_k2", "src/pammedsil.rs:pammedsil_swap", "src/pammedsil.rs:pammedsil"]}
{"id": "C73", "title": "orlib example: shortest paths and the clustering built on them", "statement": "In the example program orlib-kmedoids.rs, all_pairs_shortest_path returns the lengths of the shortest walks for every symmetric matrix with zero diagonal and non-negative entries if twice the largest entry is in the range of the integer type; the result is a metric, and no addition overflows. read_orlib returns, for every file which lists the edges of a simple graph (repeated edges: the last one counts), the distances in the graph, capped at the value given to missing edges, with that value for objects in different components. The whole program then returns a clustering whose loss is the exact total deviation, and if it stops before 100 iterations no swap improves it and it costs at most five times the optimum. Lines with too few tokens, equal ends or ends outside 1..n make it panic, and so does a first line without exactly three numbers; a token which is not a number makes it return the error. The program itself gives i32::MAX to missing edges: whenever the edge between the first object and some other object is missing (and there are at least three objects), builds with overflow checks panic and builds without produce negative distances.", "quantifier": "all integer widths, files, graphs, tokenizers, initial medoids, both overflow modes", "why_tests_cant": "Correctness of the in-place triangular update needs an induction over stages and walks of any length; the overflow depends on the position of the missing edges, and graphs which start with a vertex adjacent to all others do not show it.", "anchors": ["examples/orlib-kmedoids.rs:all_pairs_shortest_path", "examples/orlib-kmedoids.rs:read_orlib", "examples/orlib-kmedoids.rs:main"]}
{"id": "C74", "title": "mnist example: Euclidean distances in binary64 and the clustering built on them", "statement": "In the example program mnist-kmedoids.rs, read_mnist accepts every file with a 16-byte header and exactly len*rows*cols bytes, panics on every shorter or longer one, and computes (for at most 2^37 pixels per image) a matrix of finite, non-negative binary64 numbers without negative zeros which is exactly symmetric, is zero exactly for equal images, and whose entries are the Euclidean distances of the images scaled to [0,1) with a relative error of at most 2^-53; everything before the square root is exact, so that the matrix does not depend on the order in which the scalar product adds its terms. The triangle inequality holds up to the factor (1+2^-53)/(1-2^-53), but not exactly. The whole program returns ten different medoids with every image assigned to a nearest one; the total deviation is not larger than that of the start up to rounding, and if no swap was made, or fewer than 100 iterations and the last pass lowered the computed loss or made no swap, then no single swap lowers it and it is within a factor of five of the optimum, both up to the explicit rounding error.", "quantifier": "all files, image sizes up to 2^37 pixels, orders of summation, initial medoids", "why_tests_cant": "The relative error of the square root and of the sums has to hold for all images and all orders of summation; violations of the triangle inequality by one unit in the last place do not show in clusterings of test data.", "anchors": ["examples/mnist-kmedoids.rs:read_mnist", "examples/mnist-kmedoids.rs:main"]}
{"id": "C75", "title": "Dissimilarities measured with errors", "statement": "If every entry of the matrix differs by at most d from a true dissimilarity, then for every run of fasterpam, rand_fasterpam, fastpam1 or pam_swap which stops by itself the loss differs from the true total deviation of its medoids by at most n*d, no single swap lowers the true total deviation by more than 2*n*d, and if the true dissimilarity is a metric the true total deviation is at most five times the optimum plus 2*k*n*d. The matrix itself need not be symmetric or satisfy the triangle inequality. With rounding errors e of the losses the bounds increase by e and k*e. The optimum for the measured matrix need not be an optimum for the true one.", "quantifier": "all matrices, true dissimilarities, error bounds, orders of candidates, initial medoids, exact loss types (and, with e, nearly optimal medoids of inexact ones)", "why_tests_cant": "It compares each run with infinitely many true dissimilarities, and with the unknown optimum.", "anchors": ["src/fasterpam.rs:fasterpam", "src/fasterpam.rs:rand_fasterpam", "src/fastpam1.rs:fastpam1", "src/pam.rs:pam_swap"]}
{"id": "C76", "title": "The benchmarks do not overflow and compute what they should", "statement": "In benches/bench.rs, for every outcome of the random number generator, the matrix built is symmetric with zero diagonal and every pair of different objects gets a draw of its own (1 to 9999); with i32 losses no benchmark panics or overflows up to 71589 objects (SIZE is 100), the losses returned are the exact total deviations, the medoids of fasterpam, rand_fasterpam, par_fasterpam, fastpam1, pam_swap and pam are valid, not worse than the initial ones and optimal for single swaps when fewer than 100 iterations were made, pam_build finds exactly five different medoids greedily, and alternating is consistent and not worse than its start.", "quantifier": "all outcomes of the generator, sizes from 5 to 71589, shuffles, schedulings; any loss type exact up to 3*size*9999", "why_tests_cant": "The benchmarks run one seed and check no result; that no outcome of the generator overflows an i32 is a statement about all matrices.", "anchors": ["benches/bench.rs:bench_fasterpam", "benches/bench.rs:bench_rand_fasterpam", "benches/bench.rs:bench_par_fasterpam", "benches/bench.rs:bench_fastpam1", "benches/bench.rs:bench_pam_swap", "benches/bench.rs:bench_pam_build", "benches/bench.rs:bench_pam", "benches/bench.rs:bench_alternating"]}
{"id": "C77", "title": "Builds with overflow checks: every overflow that matters is caught", "statement": "Compiled with overflow checks and with w-bit integer losses, fasterpam, rand_fasterpam, par_fasterpam, fastpam1, pam_swap, pam_build, pam and alternating either panic with an overflow, or return (or panic) exactly as the release build and as with unbounded integers; so a result which a debug build returns has the exact loss and is optimal for single swaps. If 3*n*m fits into the type (m bounds the dissimilarities), no check fails and the checks make no difference, even for invalid inputs; otherwise a debug build may panic although all dissimilarities fit into the type.", "quantifier": "all widths, matrices of non-negative entries which fit into the type, medoids (valid or not), orders, schedulings, iteration limits", "why_tests_cant": "Tests compile with overflow checks but run small matrices; that no intermediate value overflows below the bound, and that the release build does the same whenever the debug build returns, are statements about all runs.", "anchors": ["src/fasterpam.rs:fasterpam", "src/fasterpam.rs:rand_fasterpam", "src/par_fasterpam.rs:par_fasterpam", "src/fastpam1.rs:fastpam1", "src/pam.rs:pam_swap", "src/pam.rs:pam_build", "src/pam.rs:pam", "src/alternating.rs:alternating"]}
{"id": "C78", "title": "Well separated groups are found", "statement": "If the n objects form k groups, objects of one group are at most d apart, objects of different groups more than n*d (plus the rounding error) apart, and every object sees the members of a group at distances which differ by at most d (on metric data this follows), then from any k initial medoids one pass of fasterpam, rand_fasterpam or par_fasterpam returns exactly these groups as clusters; so do fastpam1 and PAM's swap phase when they stop, BUILD alone, and PAM. In exact arithmetic the medoids at which the swap algorithms stop are the best k medoids there are; in binary64 no k medoids are better by more than (k+1) times the rounding error. The alternating algorithm finds the groups from initial medoids with one in each group, and may miss them otherwise.", "quantifier": "all numbers of objects and groups, dissimilarities (not only metric ones), initial medoids, orders, schedulings, iteration limits of at least one pass; exact losses, machine integers without overflow, and binary64", "why_tests_cant": "Tests check a few data sets with a few initial medoids; that no initial medoids, order or scheduling make a swap algorithm miss the groups, and that rounding never does, are statements about all of them.", "anchors": ["src/fasterpam.rs:fasterpam", "src/fasterpam.rs:rand_fasterpam", "src/par_fasterpam.rs:par_fasterpam", "src/fastpam1.rs:fastpam1", "src/pam.rs:pam_swap", "src/pam.rs:pam_build", "src/pam.rs:pam", "src/alternating.rs:alternating"]}
{"id": "C79", "title": "Clusterings handed to the silhouette functions", "statement": "The clusterings returned by fasterpam, rand_fasterpam, par_fasterpam, fastpam1, PAM, alternating, pammedsil, and with three or more medoids fastermsc, fastmsc and dynmsc, use every label, even with duplicate objects and whatever rounding does to the losses; so silhouette and par_silhouette, applied to them, return the silhouettes of the textbook, between -1 and 1: exactly in exact arithmetic, and up to rounding in binary64. With two medoids fastermsc, fastmsc and dynmsc need that no two objects are at distance 0. On well separated groups (C78) of at least two objects each, one pass of fasterpam gives a silhouette of at least 1 - d/s, where d is the largest distance within a group and s the smallest between groups; likewise the medoid silhouette, for groups of any size.", "quantifier": "all matrices, numbers of objects and of medoids from two, initial medoids, orders, schedulings, iteration limits (including 0); any loss type for the clustering (exact ones or binary64 for pammedsil with its BUILD and for dynmsc); exact arithmetic or binary64 for the silhouette", "why_tests_cant": "A test checks the silhouette of a handful of clusterings; that no input, duplicate objects included, makes an algorithm leave a label unused, which silhouette does not check, is a statement about all inputs.", "anchors": ["src/silhouette.rs:silhouette", "src/par_silhouette.rs:par_silhouette", "src/silhouette.rs:medoid_silhouette", "src/fasterpam.rs:fasterpam", "src/par_fasterpam.rs:par_fasterpam", "src/fastpam1.rs:fastpam1", "src/pam.rs:pam", "src/alternating.rs:alternating", "src/fastermsc.rs:fastermsc", "src/fastmsc.rs:fastmsc", "src/pammedsil.rs:pammedsil", "src/dynmsc.rs:dynmsc"]}
{"id": "C80", "title": "How many dissimilarities are read", "statement": "With n objects and k >= 2 medoids: FastPAM1 reads n entries of the matrix for every candidate in every iteration and PAM k(n-1); both n*k to set up and at most n*k per swap. In exact arithmetic FastPAM1 makes the same moves as PAM, which reads exactly (k(n-1)-n)(n-k) more entries per iteration: FastPAM1 is faster than PAM, as documented, and costs O(n^2) per iteration to find the best swap. The same holds for FastMSC and PAMMEDSIL with three or more medoids. FasterPAM and FasterMSC read between n*k and n*k*(1+swaps) + n*n*iterations entries, alternating at most n*k + n*(n+k)*iterations, BUILD at most n*n*k, PAM at most n*n*k*(1+iterations) + n*k*swaps. With one medoid n(n-1) entries are read, n*n by pam_swap and pammedsil_swap. The Silhouette reads n(n-1) entries, or n-1 if all labels are 0; the Medoid Silhouette n*k.", "quantifier": "all matrices, numbers of objects and of medoids, initial medoids, iteration limits, orders; any number types, except that the two-sided bounds need ordered dissimilarities, and the exact differences exact losses", "why_tests_cant": "Counting the reads of a few runs says nothing about other sizes and inputs; the documented costs are statements about all of them.", "anchors": ["src/fastpam1.rs:fastpam1", "src/pam.rs:pam_swap", "src/pam.rs:pam", "src/fasterpam.rs:fasterpam", "src/fastermsc.rs:fastermsc", "src/fastmsc.rs:fastmsc", "src/pammedsil.rs:pammedsil_swap", "src/alternating.rs:alternating", "src/silhouette.rs:silhouette", "src/silhouette.rs:medoid_silhouette", "src/par_silhouette.rs:par_silhouette"]}
{"id": "C81", "title": "Silhouettes do not depend on names, order and unit", "statement": "Renaming the clusters, renaming the objects and multiplying all dissimilarities by a positive constant (even with other exact number types) does not change the silhouette of any object nor the average of silhouette and par_silhouette, for labels 0..K-1 all in use, K >= 2; the same for medoid_silhouette, with the medoids listed in any order. Renaming the clusters leaves even the floating point result of silhouette and par_silhouette unchanged bit for bit, for entries from 0 to 2^970, and so does reordering the medoids for medoid_silhouette, in every number type which orders the entries linearly. If a label below the largest one is unused, then the silhouette of every object is -1, or 0 if it is at distance 0 from all of its cluster, whatever the clustering is. (Refuted: names of clusters do not matter with NaN; names of objects do not matter in binary64.)", "quantifier": "all matrices with non-negative entries, all n, K, assignments, permutations of objects and labels, constants c > 0, medoid lists", "why_tests_cant": "Relations between two runs for every permutation of every input; bit for bit equality of floating point sums and minima for all inputs.", "anchors": ["src/silhouette.rs:silhouette", "src/silhouette.rs:medoid_silhouette", "src/par_silhouette.rs:par_silhouette"]}
{"id": "C82", "title": "Dissimilarities read by BUILD, PAMSIL, PAMMEDSIL, DynMSC and the parallel FasterPAM", "statement": "With n objects and k medoids: BUILD reads exactly n^2 dissimilarities for its first medoid and n^2-1 for each further one (PAM, PAMSIL), or n(n-1) (PAMMEDSIL), plus one unsuccessful search if it gives up early. pammedsil reads at most n^2 k (1 + iterations) + n k swaps. pamsil evaluates between k(n-k) and k(n-1) swaps per iteration, each at n(n+k-1) reads (so about k n^3 per iteration; the stale assignment it uses to skip medoids can cost up to k(k-1) needless evaluations). dynmsc, for all numbers of clusters from k down, reads at most n k for each number of clusters and each swap and n^2 for each iteration. par_fasterpam reads exactly n entries per candidate whatever the number of threads and their order, in total at most n k (1 + swaps) + n * candidates * iterations, as fasterpam.", "quantifier": "all matrices, number types, k >= 2, start medoids, candidate orders, maxiter and schedules for which the run does not panic", "why_tests_cant": "Exact counts and bounds on the work for every input and every scheduling of the threads.", "anchors": ["src/pam.rs:pam_build_initialize", "src/pamsil.rs:pamsil_swap", "src/pamsil.rs:pamsil", "src/pammedsil.rs:pammedsil", "src/dynmsc.rs:dynmsc", "src/par_fasterpam.rs:par_fasterpam"]}
{"id": "C83", "title": "fastermsc, fastmsc and dynmsc with integer dissimilarities in builds with overflow checks", "statement": "With signed or unsigned integer dissimilarities of w bits, fastermsc, fastmsc and dynmsc compiled with overflow checks either panic with an overflow, or do exactly what the release build (wrapping addition) does and what they would do with unbounded integers. If every entry is within half of the range, they do not panic with an overflow. For nonnegative matrices of up to 53 bits and binary64 losses, an overflow is the only panic, and a clustering which is returned is not worse than the given medoids and its reported medoid silhouette is right, up to the rounding errors of C63. Without the condition the panic does occur (i32 entries below 2^31), while PAMMEDSIL returns.", "quantifier": "all widths, matrices, loss types, medoids, minimum numbers of clusters and iteration limits", "why_tests_cant": "It compares three semantics of the addition for all inputs; a test sees the overflow only for the inputs it tries.", "anchors": ["src/fastermsc.rs:find_best_swap", "src/fastermsc.rs:fastermsc", "src/fastmsc.rs:fastmsc", "src/dynmsc.rs:dynmsc"]}
{"id": "C84", "title": "Silhouettes and PAMSIL with an integer loss type", "statement": "silhouette, par_silhouette, medoid_silhouette and pamsil accept an integer loss type such as i64, and their divisions then truncate. (1) The silhouette of an object is -1, 0 or 1 (given exactly), and the average is 1 or -1 only if every object has it. (2) If different objects are at distance 1 or more, no labelling has a positive silhouette, and every labelling with two or more clusters and no unused label has 0: the value does not depend on the clustering. (3) medoid_silhouette returns 1 for any two or more medoids. (4) pamsil then never swaps: it returns the medoids of BUILD with value 0 after one iteration. It is refuted that this is a local optimum of the silhouette. (5) All of this holds for w-bit integers if three times the number of objects times the largest dissimilarity is in range; without a bound the reported silhouette can even be 2.", "quantifier": "all integer matrices, labels, medoids, numbers of clusters and iteration limits", "why_tests_cant": "The tests use f64 only, and the statements are about all matrices and clusterings.", "anchors": ["src/silhouette.rs:silhouette", "src/silhouette.rs:medoid_silhouette", "src/par_silhouette.rs:par_silhouette", "src/pamsil.rs:pamsil", "src/pamsil.rs:pamsil_optimize"]}
{"id": "C85", "title": "Silhouettes and PAMSIL with integer losses: overflow checks and division by zero", "statement": "With a w-bit signed loss type: (1) a build with overflow checks either panics with an arithmetic panic or does what the release build does, for all inputs of silhouette, par_silhouette, medoid_silhouette, pamsil_swap and pamsil. (2) If all dissimilarities are in the range of the type and not negative, it either panics so or returns the exact results of unbounded integers, so no overflow goes unnoticed. (3) If also 3 n m is in range, where m is the largest dissimilarity, there is no arithmetic panic. (4) With 1 to 2^32-1 objects no build divides by zero (for medoid_silhouette: if the dissimilarities are in range and not negative), except that silhouette and par_silhouette of an empty list of labels do. It is refuted that (3) holds without the bound.", "quantifier": "all w with a range that includes u32, all matrices (not necessarily square), labels, medoids, numbers of clusters and iteration limits", "why_tests_cant": "The tests use f64 only; an overflow needs large sums, and the statements are about all inputs.", "anchors": ["src/silhouette.rs:silhouette", "src/silhouette.rs:checked_div", "src/silhouette.rs:medoid_silhouette", "src/par_silhouette.rs:par_silhouette", "src/pamsil.rs:pamsil", "src/pamsil.rs:pamsil_swap"]}
{"id": "C86", "title": "BUILD saves at least half of what is possible", "statement": "For every dissimilarity matrix (no triangle inequality needed) and k, the loss of pam_build is at most the mean of the total deviations of the best single medoid and of the best k medoids. More precisely its excess over any q medoids is at most (1-1/q)^(k-1) times the excess of the best single medoid. The same holds for pam, for the initial medoids of pamsil, and for those of pammedsil when compared with medoids other than object 0; in binary64 it holds up to (2k+2) rounding errors. Refuted: BUILD is not within a constant factor of the optimum, even on metric data (for every m there is a metric on 2m+1 objects where it reaches m, and 1 is possible), and the share of one half cannot be raised; alternating is not within any factor (loss 1, optimum 0).", "quantifier": "all dissimilarity matrices, numbers of clusters and competing medoids; exact loss types and binary64; for the refutation all m that fit into u32", "why_tests_cant": "The competing medoids range over all subsets, and the guarantee is about all matrices.", "anchors": ["src/pam.rs:pam_build", "src/pam.rs:pam", "src/pamsil.rs:pamsil_build_initialize", "src/pammedsil.rs:pammedsil", "src/alternating.rs:alternating"]}
{"id": "C87", "title": "Well separated groups and the medoid silhouette", "statement": "Let the objects form groups, d the largest distance within a group, s the smallest between groups, every object seeing the members of a group at distances which differ by at most d (as on metric data). With two groups and n d/s < s/(s+d), one pass of fastermsc, fastmsc or PAMMEDSIL's swap phase finds them from any two medoids: the clusters are the groups, and the returned silhouette is at least 1 - d/s. With more groups, all distances at most S and n d/s < s/S, the three keep groups which the given medoids represent, for any limit; pammedsil finds them for any limit if object 0, which its BUILD leaves out, is not alone in its group, and otherwise with one iteration if it found k medoids. In binary64 the same with the rounding errors of C63 added (two groups: fastmsc and PAMMEDSIL's swap phase, when they stop before the limit). Refuted: from other medoids the three can be stuck with a group missed when there are three groups, even equally far apart; and if some groups are much farther away than others, pammedsil leaves the groups its BUILD had found.", "quantifier": "all dissimilarity matrices with such groups, group sizes and numbers of groups, initial medoids, iteration limits; exact loss types and binary64", "why_tests_cant": "The data, the groups and the starting points are arbitrary; a test runs a few data sets, where it may find the groups by luck or fail by bad luck.", "anchors": ["src/fastermsc.rs:fastermsc", "src/fastermsc.rs:fastermsc_k2", "src/fastmsc.rs:fastmsc", "src/fastmsc.rs:fastmsc_k2", "src/pammedsil.rs:pammedsil_swap", "src/pammedsil.rs:pammedsil"]}
{"id": "C88", "title": "DynMSC and the number of groups", "statement": "Let the objects form K >= 2 groups, d the largest distance within a group, s the smallest between groups, S the largest distance, every object seeing the members of a group at distances which differ by at most d, and n d/s < s/S (for two groups: s/(s+d)). If there are k > K initial medoids, let also each group have more than k objects, at least d0 apart, with n d/s < d0/d. Then for up to four initial medoids (a) the silhouette dynmsc returns is a certificate: if it is at least 1 - d/s, there are K returned medoids and the clusters are the groups; and every entry of the list of losses for another number of medoids is below 1 - d/s; (b) two groups, and that they are two, are found from any two to four initial medoids, if the minimum number of medoids is at most 2 and one iteration is allowed; (c) if the initial medoids are one of each group, K medoids and the groups are returned for any minimum and limit. In binary64 (a) and (c) hold with the rounding errors of C65 added. Refuted: (b) for three groups, where two medoids may be returned; and (b) without the condition on d0: four medoids are returned for two groups which consist of well separated parts.", "quantifier": "all dissimilarity matrices with such groups, group sizes, initial medoids (two to four), minimum numbers of medoids, iteration limits; exact loss types, and binary64 for (a) and (c)", "why_tests_cant": "The number of medoids to return is the purpose of DynMSC, but on a test data set the right number may be returned by luck; the theorems cover every such data set and start.", "anchors": ["src/dynmsc.rs:dynmsc", "src/fastermsc.rs:fastermsc", "src/fastermsc.rs:fastermsc_k2"]}
{"id": "C89", "title": "BUILD is incremental", "statement": "For k <= k', the medoids pam_build returns for k are the first k of those it returns for k'; an object which is in a different cluster for k' is in one of the added clusters; and if there are no added medoids (BUILD has stopped early), loss and clusters are the same. This holds for every numeric type, NaN included, and every matrix. The BUILD of pammedsil has the same property, and the BUILD of pamsil, which never stops early, returns the first k of the k' medoids. In exact arithmetic the loss for k' is smaller than that for k whenever there are added medoids. Refuted for PAM: after the swaps, three medoids may have a larger loss than two.", "quantifier": "all matrices, all k <= k', all numeric types (exact ones for the losses)", "why_tests_cant": "A statement about two runs with different k on every matrix; tests fix k and the matrix.", "anchors": ["src/pam.rs:pam_build", "src/pam.rs:pam_build_initialize", "src/pammedsil.rs:pammedsil_build_initialize", "src/pamsil.rs:pamsil_build_initialize", "src/pam.rs:pam"]}
{"id": "C90", "title": "As many medoids as objects", "statement": "Given all n >= 2 objects as medoids, in any order, fasterpam, rand_fasterpam, par_fasterpam, fastpam1, pam_swap and alternating return them unchanged with loss zero, every object assigned to itself, no swaps and one iteration (none if maxiter is 0); also with duplicate objects, for every integer, rational or binary64 matrix with zero diagonal. For n >= 3 the same holds of fastermsc, fastmsc and pammedsil_swap with medoid silhouette one, which in binary64 is exactly 1.0. In exact arithmetic, if no two objects have distance zero, dynmsc started with all objects returns all of them for every minimum_k, with silhouette one and all other listed values below one; and BUILD returns exactly k medoids for every k, with loss zero if and only if k = n. Refuted for PAMMEDSIL with its own BUILD, which may return fewer than n medoids when asked for n.", "quantifier": "all n, all matrices, all orders of the medoids, all iteration limits, all thread schedules of par_fasterpam", "why_tests_cant": "The degenerate case for every n, matrix, order of medoids and numeric type, with an exact value in floating point.", "anchors": ["src/fasterpam.rs:rand_fasterpam", "src/par_fasterpam.rs:par_fasterpam", "src/fastpam1.rs:fastpam1", "src/pam.rs:pam_swap", "src/pam.rs:pam_build", "src/alternating.rs:alternating", "src/fastermsc.rs:fastermsc", "src/fastmsc.rs:fastmsc", "src/pammedsil.rs:pammedsil_swap", "src/pammedsil.rs:pammedsil", "src/dynmsc.rs:dynmsc"]}
{"id": "C91", "title": "Repeated initial medoids", "statement": "The code does not check that the initial medoids are different objects. For any k >= 2 objects as initial medoids, repetitions allowed, exact arithmetic and a matrix with zero diagonal, fasterpam, rand_fasterpam, fastpam1 and pam_swap still return: every object is assigned to a nearest medoid, the loss is the total deviation of the returned medoids and the cost of the returned assignment, it is not larger than that of the initial medoids and smaller after any swap, there are fewer than n^k swaps and at most one iteration more than swaps. If the search stops before maxiter, no swap improves the result, and its medoids are different objects unless the loss is zero. fastpam1 and pam_swap return the same result, and fasterpam and fastpam1 make the moves of the plain searches of C52 and C53. Refuted: with loss zero repeated medoids stay and leave a cluster empty.", "quantifier": "all n and k, all matrices, all lists of k objects, all iteration limits, all orders of candidates", "why_tests_cant": "Inputs outside the documented use, for every matrix and every pattern of repetitions; the claim that the repetitions disappear holds at the end of searches of any length.", "anchors": ["src/fasterpam.rs:fasterpam", "src/fasterpam.rs:rand_fasterpam", "src/fasterpam.rs:initial_assignment", "src/fasterpam.rs:do_swap", "src/fastpam1.rs:fastpam1", "src/pam.rs:pam_swap"]}
{"id": "C92", "title": "All objects but one as medoids", "statement": "With n - 1 >= 2 initial medoids, exact arithmetic, a matrix with zero diagonal and at least one allowed iteration, fasterpam, rand_fasterpam with any order of all candidates, par_fasterpam with any schedule, fastpam1 and pam_swap find the global optimum: they make at most one swap, stop in the iteration after it, no other choice of n - 1 medoids has a smaller total deviation, and the loss is the smallest dissimilarity of two different objects. pam with k = n - 1 on a symmetric matrix has this loss too, also where BUILD finds fewer medoids. fastermsc, fastmsc and pammedsil_swap likewise find the largest medoid silhouette of all choices of n - 1 medoids with at most one swap. Refuted: with n - 2 medoids the result need not be the optimum, for any number of iterations.", "quantifier": "all n >= 3, all matrices, all choices of n - 1 medoids in any order, all iteration limits >= 1, all orders of candidates, all schedules", "why_tests_cant": "The optimum is claimed for every matrix of every size, independent of the start and the order of the candidates.", "anchors": ["src/fasterpam.rs:fasterpam", "src/fasterpam.rs:rand_fasterpam", "src/fasterpam.rs:find_best_swap", "src/par_fasterpam.rs:par_fasterpam", "src/fastpam1.rs:fastpam1", "src/pam.rs:pam_swap", "src/pam.rs:pam", "src/fastermsc.rs:fastermsc", "src/fastmsc.rs:fastmsc", "src/pammedsil.rs:pammedsil_swap"]}
{"id": "C93", "title": "The iteration limit only cuts off", "statement": "For every numeric type, without any law (so also with rounding and NaN), every matrix and every list of medoids, valid or not: if fasterpam, rand_fasterpam, par_fasterpam, fastpam1, pam_swap, pam, alternating, fastermsc, fastmsc, pammedsil_swap or pammedsil returns with limit m', it returns with every smaller limit m, and either the two results are identical or the shorter run took exactly m iterations, the longer run more, with at least as many swaps; and a run which stopped before its limit returns the same with every larger limit. For pamsil_swap and pamsil the same if both runs return. dynmsc, whose limit holds for every number of medoids, returns the same with every larger limit if its iterations together were fewer than the limit. In exact arithmetic more iterations never make the loss larger or the medoid silhouette smaller. Refuted: DynMSC may return a smaller silhouette with a larger limit.", "quantifier": "all numeric types, matrices, lists of medoids, pairs of limits, orders of candidates and schedules", "why_tests_cant": "Compares runs for all pairs of limits and for arithmetic of any kind, including matrices for which the run panics later.", "anchors": ["src/fasterpam.rs:fasterpam", "src/fasterpam.rs:rand_fasterpam", "src/par_fasterpam.rs:par_fasterpam", "src/fastpam1.rs:fastpam1", "src/pam.rs:pam", "src/alternating.rs:alternating", "src/fastermsc.rs:fastermsc", "src/fastmsc.rs:fastmsc", "src/pammedsil.rs:pammedsil", "src/pamsil.rs:pamsil", "src/dynmsc.rs:dynmsc"]}
{"id": "C94", "title": "Medoids are not wasted on duplicates", "statement": "When fasterpam, rand_fasterpam, par_fasterpam, fastpam1 or pam_swap (k >= 2) stops before the iteration limit: if medoid c could take the objects of medoid b at an expense of at most e each, then no object is farther from its nearest medoid than the size of cluster b times e; in particular a medoid which serves nobody better than another one is returned only if the loss is zero. On metric data, also for pam with BUILD: the distance of an object to its medoid is at most the size of cluster b times the distance of the medoids b and c, and if there are k objects at pairwise positive distances, the returned medoids (for pam: exactly k) have pairwise positive distances. In binary64, rand_fasterpam satisfies the first bound up to the rounding error of the loss unless the last pass did not lower the computed loss. Refuted: the alternating algorithm keeps duplicates as medoids, and so do fastermsc, fastmsc and pammedsil_swap, where this can even be the best medoid silhouette.", "quantifier": "all matrices with exact arithmetic (for the last bound: with binary64 losses, entries exact and bounded), sizes, initial medoids, limits, orders of candidates and schedules", "why_tests_cant": "Relates every pair of returned medoids to every object, for all matrices and all runs.", "anchors": ["src/fasterpam.rs:fasterpam", "src/fasterpam.rs:rand_fasterpam", "src/par_fasterpam.rs:par_fasterpam", "src/fastpam1.rs:fastpam1", "src/pam.rs:pam_swap", "src/pam.rs:pam", "src/alternating.rs:alternating", "src/fastermsc.rs:fastermsc", "src/fastmsc.rs:fastmsc", "src/pammedsil.rs:pammedsil_swap"]}
{"id": "C95", "title": "The order of the initial medoids", "statement": "If no two different sets of k >= 2 medoids have the same total deviation, then fasterpam, rand_fasterpam, par_fasterpam (with any two schedules), fastpam1 and pam_swap, started from the same initial medoids in another order, return the same medoids up to their order, the same loss and the same numbers of swaps and iterations. Likewise fastermsc, fastmsc and pammedsil_swap if no two different sets of medoids have the same medoid silhouette. Refuted for matrices with ties: there the order of the initial medoids may change even the loss of the result.", "quantifier": "all matrices with exact arithmetic and without ties between sets of medoids, all initial medoids, permutations of them, limits, orders of candidates and schedules", "why_tests_cant": "Compares the runs for all permutations of all initial medoids, for all matrices.", "anchors": ["src/fasterpam.rs:fasterpam", "src/fasterpam.rs:rand_fasterpam", "src/par_fasterpam.rs:par_fasterpam", "src/fastpam1.rs:fastpam1", "src/pam.rs:pam_swap", "src/fastermsc.rs:fastermsc", "src/fastmsc.rs:fastmsc", "src/pammedsil.rs:pammedsil_swap"]}
{"id": "C96", "title": "Far outliers become medoids", "statement": "On metric data, let far be fewer than k objects such that the other objects are at most w from each other and each object of far is more than n*w from every other object. Whenever fasterpam, rand_fasterpam, par_fasterpam, fastpam1, pam_swap (k >= 2) or pam with BUILD stops before the iteration limit, all of far are medoids. In binary64, rand_fasterpam returns them as medoids if they are farther than n*w plus the rounding error of the loss, unless the last pass did not lower the computed loss. Refuted for the alternating algorithm, which may leave an outlier in the cluster of another object for every iteration limit.", "quantifier": "all metric matrices with exact arithmetic (for the bound with rounding: binary64 losses, entries exact and bounded), sizes, sets of outliers, initial medoids, limits, orders of candidates and schedules", "why_tests_cant": "Concerns every set of outliers of every size and every run.", "anchors": ["src/fasterpam.rs:fasterpam", "src/fasterpam.rs:rand_fasterpam", "src/par_fasterpam.rs:par_fasterpam", "src/fastpam1.rs:fastpam1", "src/pam.rs:pam_swap", "src/pam.rs:pam", "src/alternating.rs:alternating"]}
{"id": "C97", "title": "One medoid more", "statement": "Take the result of fasterpam, rand_fasterpam, par_fasterpam, fastpam1 or pam_swap for k medoids (k >= 2, or symmetric dissimilarities), stopped at any iteration limit, and start any of them again from its medoids and one further object x. Then the loss falls by at least the distance of x to its medoid; and there is an object x from which the loss falls at least by the factor (n-k-1)/(n-k). For symmetric dissimilarities the same decrease holds for the alternating algorithm started from its own result and x. In binary64 the total deviation of the medoids returned by fastpam1, pam_swap and rand_fasterpam falls by the same amount up to the rounding error. Refuted without such a start: pam with BUILD, run until it stops, may return a larger loss for k+1 medoids than for k. Also refuted for the medoid silhouette: fastermsc started from its own result and one more object may return a smaller value, whichever object it is.", "quantifier": "all matrices with exact arithmetic, sizes, initial medoids, further objects, limits, orders of candidates and schedules of both runs", "why_tests_cant": "Relates two runs for all matrices, initial medoids and further objects.", "anchors": ["src/fasterpam.rs:fasterpam", "src/fasterpam.rs:rand_fasterpam", "src/par_fasterpam.rs:par_fasterpam", "src/fastpam1.rs:fastpam1", "src/pam.rs:pam_swap", "src/pam.rs:pam", "src/alternating.rs:alternating", "src/fastermsc.rs:fastermsc"]}
{"id": "C98", "title": "Clusters are star-shaped", "statement": "For fasterpam, rand_fasterpam, par_fasterpam, fastpam1, pam_swap, alternating, pammedsil_swap, fastermsc and fastmsc (the last two with three or more medoids or no two objects at distance zero), stopped at any limit: on metric data, an object y on a shortest way from an object x to the medoid of x is at least as close to this medoid as to any other medoid, and is in the same cluster unless another medoid is equally close. For points on a line, the same holds for all objects between two objects of a cluster: up to ties the clusters are intervals.", "quantifier": "all metric or one-dimensional dissimilarity matrices of any ordered numeric type, any arithmetic of the loss type (including binary64), sizes, initial medoids, limits, orders of candidates and schedules", "why_tests_cant": "A statement on all triples of objects of all metric matrices and all runs.", "anchors": ["src/fasterpam.rs:fasterpam", "src/fasterpam.rs:rand_fasterpam", "src/par_fasterpam.rs:par_fasterpam", "src/fastpam1.rs:fastpam1", "src/pam.rs:pam_swap", "src/alternating.rs:alternating", "src/pammedsil.rs:pammedsil_swap", "src/fastermsc.rs:fastermsc", "src/fastmsc.rs:fastmsc"]}
{"id": "C99", "title": "Some of the clusters on their own", "statement": "Whenever fasterpam, rand_fasterpam, par_fasterpam, fastpam1 or pam_swap (k >= 2) stops before the iteration limit, take any non-empty set of the returned clusters, their objects in any order, and the matrix of the dissimilarities of these objects. Any of these algorithms, applied to this matrix from the medoids of these clusters, stops after one iteration without a swap, and reports the share of these objects in the loss. For a single cluster symmetric dissimilarities are assumed. On symmetric dissimilarities the alternating algorithm, started there, keeps the medoids as well. Refuted for the medoid silhouette (fastermsc).", "quantifier": "all matrices with exact arithmetic, sizes, initial medoids, limits, orders and schedules; all sets of clusters, orders of their objects, and all limits, orders and schedules of the second run", "why_tests_cant": "Relates runs on two different matrices for all sets of clusters of all runs.", "anchors": ["src/fasterpam.rs:fasterpam", "src/fasterpam.rs:rand_fasterpam", "src/par_fasterpam.rs:par_fasterpam", "src/fastpam1.rs:fastpam1", "src/pam.rs:pam_swap", "src/alternating.rs:alternating", "src/fastermsc.rs:fastermsc"]}
{"id": "C100", "title": "Copies of the medoids change nothing", "statement": "Whenever fasterpam, rand_fasterpam, par_fasterpam, fastpam1 or pam_swap (k >= 2) stops before the iteration limit, add any number of copies of the returned medoids to the objects. Any of these algorithms, started on the larger matrix from the returned medoids, stops after one iteration without a swap and reports the same loss. On symmetric dissimilarities the alternating algorithm, started there, keeps the medoids as well. Refuted for copies of other objects: they can make such an object a medoid. Refuted for the medoid silhouette: fastermsc may move a medoid to a copy of another medoid.", "quantifier": "all matrices with exact arithmetic, sizes, initial medoids, limits, orders and schedules; all numbers of copies, and all limits, orders and schedules of the second run", "why_tests_cant": "Relates runs on matrices of different sizes, for all results and all numbers of copies.", "anchors": ["src/fasterpam.rs:fasterpam", "src/fasterpam.rs:rand_fasterpam", "src/par_fasterpam.rs:par_fasterpam", "src/fastpam1.rs:fastpam1", "src/pam.rs:pam_swap", "src/alternating.rs:alternating", "src/fastermsc.rs:fastermsc"]}
{"id": "C101", "title": "Dissimilarities which speak even more for a clustering keep its medoids", "statement": "Whenever fasterpam, rand_fasterpam, par_fasterpam, fastpam1 or pam_swap (k >= 2) stops before the iteration limit, change the dissimilarities so that no object moves away from its medoid, no dissimilarity of an object falls by more than that to its medoid, and those of a medoid fall at most by that of the other object to its own medoid; anything may grow otherwise. Any of these algorithms, started on the new matrix from the returned medoids, stops after one iteration without a swap, and its loss is the sum of the new dissimilarities to the same medoids. On symmetric dissimilarities the alternating algorithm, started there, keeps the medoids as well. Refuted if the objects within a cluster come closer to each other in any other way (the consistency of Kleinberg): the medoids may change. Refuted for the medoid silhouette (fastermsc), even if only the medoids move apart.", "quantifier": "all matrices with exact arithmetic, sizes, initial medoids, limits, orders and schedules; all such changes of the dissimilarities, and all limits, orders and schedules of the second run", "why_tests_cant": "Relates runs on two matrices, for all results and all changes of the dissimilarities of this kind.", "anchors": ["src/fasterpam.rs:fasterpam", "src/fasterpam.rs:rand_fasterpam", "src/par_fasterpam.rs:par_fasterpam", "src/fastpam1.rs:fastpam1", "src/pam.rs:pam_swap", "src/alternating.rs:alternating", "src/fastermsc.rs:fastermsc"]}
{"id": "C102", "title": "Every partition can be found", "statement": "For every partition of the objects into k non-empty groups there is a metric with positive distances between different objects for which fasterpam, rand_fasterpam, par_fasterpam, fastpam1 and pam_swap, from any initial medoids, and pam return k medoids and exactly these groups as clusters, if the iteration limit exceeds n^k. The same metric makes fastermsc, fastmsc and pammedsil_swap (k >= 2) return these groups, with a medoid silhouette of at least 1 - 1/(n+1), from initial medoids with one in each group, and pammedsil if object 0 is not alone in its group.", "quantifier": "all n and k within the size limits, all partitions into k groups, all initial medoids, orders, schedules and iteration limits above n^k", "why_tests_cant": "There are exponentially many partitions for every n and k, and for each the claim is about all initial medoids and schedules.", "anchors": ["src/fasterpam.rs:fasterpam", "src/fasterpam.rs:rand_fasterpam", "src/par_fasterpam.rs:par_fasterpam", "src/fastpam1.rs:fastpam1", "src/pam.rs:pam_swap", "src/pam.rs:pam", "src/fastermsc.rs:fastermsc", "src/fastmsc.rs:fastmsc", "src/pammedsil.rs:pammedsil_swap", "src/pammedsil.rs:pammedsil"]}
{"id": "C103", "title": "Repeating all objects equally often changes nothing", "statement": "Whenever fasterpam, rand_fasterpam, par_fasterpam, fastpam1 or pam_swap (k >= 2) stops before the iteration limit, let every object occur m times, in any order. Any of these algorithms, started on the larger matrix from one copy of each returned medoid, stops after one iteration without a swap, and its loss is m times the loss before. On symmetric dissimilarities the alternating algorithm, started there, keeps the medoids as well. Refuted for the medoid silhouette (fastermsc): a medoid may move to another copy of a medoid.", "quantifier": "all matrices with exact arithmetic, sizes, initial medoids, limits, orders and schedules; all numbers of repetitions, orders of the repeated objects and choices of the copies, and all limits, orders and schedules of the second run", "why_tests_cant": "Relates runs on matrices of different sizes, for all results and all numbers and orders of repetitions.", "anchors": ["src/fasterpam.rs:fasterpam", "src/fasterpam.rs:rand_fasterpam", "src/par_fasterpam.rs:par_fasterpam", "src/fastpam1.rs:fastpam1", "src/pam.rs:pam_swap", "src/alternating.rs:alternating", "src/fastermsc.rs:fastermsc"]}
