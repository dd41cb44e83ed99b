{
 "claims": [
  {
   "property": "C01",
   "status": "proved",
   "theorems": [
    "C01_fasterpam_loss",
    "C01_single_asymmetric_refuted"
   ],
   "note": "k = 1 needs a symmetric matrix; the refuted theorem shows why."
  },
  {
   "property": "C02",
   "status": "proved",
   "theorems": [
    "C02_fasterpam_nearest"
   ],
   "note": ""
  },
  {
   "property": "C03",
   "status": "proved",
   "theorems": [
    "C03_fasterpam_medoids",
    "C03_nonzero_diagonal_refuted"
   ],
   "note": "The zero diagonal is needed, see the refuted theorem."
  },
  {
   "property": "C04",
   "status": "proved",
   "theorems": [
    "C04_fasterpam_own_cluster"
   ],
   "note": ""
  },
  {
   "property": "C05",
   "status": "proved",
   "theorems": [
    "C05_fasterpam_monotone"
   ],
   "note": ""
  },
  {
   "property": "C06",
   "status": "proved",
   "theorems": [
    "C06_fasterpam_counters"
   ],
   "note": "No laws on the numbers are assumed."
  },
  {
   "property": "C07",
   "status": "proved",
   "theorems": [
    "C07_fasterpam_local_optimum"
   ],
   "note": ""
  },
  {
   "property": "C08",
   "status": "proved",
   "theorems": [
    "C08_fasterpam_converges"
   ],
   "note": ""
  },
  {
   "property": "C09",
   "status": "proved",
   "theorems": [
    "C09_no_panic",
    "C09_pam_no_panic"
   ],
   "note": "No laws on the numbers are assumed, except that 0 < 0 is false."
  },
  {
   "property": "C10",
   "status": "proved",
   "theorems": [
    "C10_panics",
    "C10_pam_panics",
    "C10_result_valid",
    "C10_single_not_square_refuted",
    "C10_single_k_gt_n_refuted"
   ],
   "note": "Refuted for k = 1, where the checks are skipped; proved otherwise."
  },
  {
   "property": "C11",
   "status": "proved",
   "theorems": [
    "C11_single_medoid",
    "C11_msc_single_medoid",
    "C11_pamsil_single_medoid",
    "C11_pamsil_single"
   ],
   "note": ""
  },
  {
   "property": "C12",
   "status": "proved",
   "theorems": [
    "C12_rand_fasterpam",
    "C12_identity_order"
   ],
   "note": "The sampled order is an arbitrary permutation; the random number generator is not modelled."
  },
  {
   "property": "C13",
   "status": "proved",
   "theorems": [
    "C13_schedule_independent",
    "C13_integers"
   ],
   "note": "Threads are modelled by an oracle: splitting, merge order and reduction trees, different at every call."
  },
  {
   "property": "C14",
   "status": "proved",
   "theorems": [
    "C14_steepest_descent",
    "C14_best_swap"
   ],
   "note": ""
  },
  {
   "property": "C15",
   "status": "proved",
   "theorems": [
    "C15_fastpam1_is_pam"
   ],
   "note": ""
  },
  {
   "property": "C16",
   "status": "proved",
   "theorems": [
    "C16_pam_build"
   ],
   "note": ""
  },
  {
   "property": "C17",
   "status": "proved",
   "theorems": [
    "C17_pam_is_build_swap"
   ],
   "note": ""
  },
  {
   "property": "C18",
   "status": "proved",
   "theorems": [
    "C18_alternating_consistent"
   ],
   "note": ""
  },
  {
   "property": "C19",
   "status": "proved",
   "theorems": [
    "C19_alternating_monotone",
    "C19_alternating_fixpoint",
    "C19_asymmetric_refuted",
    "C19_asymmetric_cycle_refuted"
   ],
   "note": ""
  },
  {
   "property": "C20",
   "status": "proved",
   "theorems": [
    "C20_silhouette_definition",
    "C20_one_cluster",
    "C20_label_gap_refuted"
   ],
   "note": "Labels must be 0..K-1 without gaps; the refuted theorem shows the wrong value otherwise."
  },
  {
   "property": "C21",
   "status": "proved",
   "theorems": [
    "C21_silhouette_range",
    "C21_samples"
   ],
   "note": ""
  },
  {
   "property": "C22",
   "status": "proved",
   "theorems": [
    "C22_par_silhouette",
    "C22_same_panics",
    "C22_one_cluster_refuted"
   ],
   "note": "Refuted for a single cluster: -1 against 0."
  },
  {
   "property": "C23",
   "status": "proved",
   "theorems": [
    "C23_medoid_silhouette",
    "C23_single_medoid"
   ],
   "note": ""
  },
  {
   "property": "C24",
   "status": "proved",
   "theorems": [
    "C24_msc_value",
    "C24_pammedsil_value"
   ],
   "note": ""
  },
  {
   "property": "C25",
   "status": "proved",
   "theorems": [
    "C25_msc_consistent",
    "C25_msc_own_cluster_k2",
    "C25_k2_empty_cluster_refuted"
   ],
   "note": "For k = 2 an empty cluster is possible with duplicate points (refuted part)."
  },
  {
   "property": "C26",
   "status": "proved",
   "theorems": [
    "C26_fastermsc_local_optimum",
    "C26_fastermsc_converges",
    "C26_duplicate_medoid_refuted"
   ],
   "note": ""
  },
  {
   "property": "C27",
   "status": "proved",
   "theorems": [
    "C27_fastmsc_is_pammedsil",
    "C27_fastmsc_is_pammedsil_k2",
    "C27_k2_assignment_refuted"
   ],
   "note": ""
  },
  {
   "property": "C28",
   "status": "proved",
   "theorems": [
    "C28_steepest_descent",
    "C28_best_swap"
   ],
   "note": ""
  },
  {
   "property": "C29",
   "status": "proved",
   "theorems": [
    "C29_msc_no_panic",
    "C29_fastmsc_k2_no_panic",
    "C29_fastmsc_nonzero_diagonal_refuted",
    "C29_pammedsil_no_panic",
    "C29_dynmsc_no_panic"
   ],
   "note": "fastmsc panics for k = 2 and a non-zero diagonal (refuted); everything else is proved for all numeric types."
  },
  {
   "property": "C30",
   "status": "proved",
   "theorems": [
    "C30_dynmsc_best",
    "C30_dynmsc_losses",
    "C30_dynmsc_is_fastermsc"
   ],
   "note": ""
  },
  {
   "property": "C31",
   "status": "proved",
   "theorems": [
    "C31_dynmsc_value",
    "C31_dynmsc_value_refuted",
    "C31_dynmsc_placeholder_refuted"
   ],
   "note": "The unrestricted claim is refuted; the restricted one is proved."
  },
  {
   "property": "C32",
   "status": "proved",
   "theorems": [
    "C32_build_greedy_but_0",
    "C32_build_greedy_refuted",
    "C32_build_number_refuted",
    "C24_pammedsil_value"
   ],
   "note": "Greedy choice among all objects is refuted; what holds (all objects but 0) is proved."
  },
  {
   "property": "C33",
   "status": "proved",
   "theorems": [
    "C33_pamsil_swap_consistent",
    "C33_pamsil_swap_improves",
    "C33_pamsil_swap_distinct_refuted"
   ],
   "note": "distinctness of the returned medoids is refuted"
  },
  {
   "property": "C34",
   "status": "proved",
   "theorems": [
    "C34_pamsil_swap_returns",
    "C34_pamsil_swap_panics",
    "C34_pamsil_swap_no_panic_refuted",
    "C34_pamsil_swap_single"
   ],
   "note": "the panic is characterised: the clause 'returns normally' is refuted, the necessary condition ranges over non-medoid candidates, the sufficient one over all objects (the stale skip test may try objects which are medoids)"
  },
  {
   "property": "C35",
   "status": "proved",
   "theorems": [
    "C35_pamsil_swap_local_optimum"
   ],
   "note": ""
  },
  {
   "property": "C36",
   "status": "proved",
   "theorems": [
    "C36_pamsil_consistent",
    "C36_pamsil_value_refuted",
    "C36_pamsil_improves_refuted",
    "C36_pamsil_distinct_refuted"
   ],
   "note": "three clauses refuted, the rest proved"
  },
  {
   "property": "C37",
   "status": "proved",
   "theorems": [
    "C37_lower_triangle",
    "C37_is_square",
    "C37_bounds_refuted",
    "C37_array2"
   ],
   "note": "outside 1 <= n <= 2^32 the claim is refuted"
  },
  {
   "property": "C38",
   "status": "proved",
   "theorems": [
    "C38_pam_family",
    "C38_build",
    "C38_msc",
    "C38_silhouettes",
    "C38_pamsil"
   ],
   "note": ""
  },
  {
   "property": "C39",
   "status": "proved",
   "theorems": [
    "C39_first_k",
    "C39_first_k_fasterpam"
   ],
   "note": ""
  },
  {
   "property": "C40",
   "status": "proved",
   "theorems": [
    "C40_fasterpam",
    "C40_alternating",
    "C40_par_fasterpam",
    "C40_fastpam1_pam",
    "C40_fastermsc",
    "C40_medoid_silhouette",
    "C40_loss_refuted",
    "C40_fasterpam_monotone_refuted",
    "C40_schedule_refuted"
   ],
   "note": "the clauses named in the statement as refuted are refuted by concrete f64 inputs, the rest is proved"
  },
  {
   "property": "C41",
   "status": "proved",
   "theorems": [
    "C41_dynmsc_drops_for_least_silhouette",
    "C41_dynmsc_drops_for_best_refuted"
   ],
   "note": "The natural claim is refuted; what the code does is proved."
  },
  {
   "property": "C42",
   "status": "proved",
   "theorems": [
    "C42_pam_family",
    "C42_msc_family",
    "C42_pammedsil",
    "C42_rejected",
    "C42_two_medoids_panic",
    "C42_two_medoids_refuted"
   ],
   "note": "refuted for two medoids in pammedsil(_swap) and dynmsc, proved otherwise"
  },
  {
   "property": "C43",
   "status": "proved",
   "theorems": [
    "C43_same_run",
    "C43_same_build",
    "C43_fasterpam",
    "C43_machine_integers",
    "C43_overflow_refuted"
   ],
   "note": "proved within the bound, refuted beyond it by a concrete i8 input"
  },
  {
   "property": "C44",
   "status": "proved",
   "theorems": [
    "C44_f64_exact",
    "C44_f64_pam",
    "C44_f64_alternating",
    "C44_f64_build",
    "C44_integers_f64"
   ],
   "note": ""
  },
  {
   "property": "C45",
   "status": "proved",
   "theorems": [
    "C45_fasterpam",
    "C45_pam_swap",
    "C45_pam",
    "C45_exact",
    "C45_f64",
    "C45_optimum_refuted",
    "C45_nonmetric_refuted",
    "C45_alternating_refuted"
   ],
   "note": "the factor is proved; the three stronger variants named in the statement are refuted by concrete inputs"
  },
  {
   "property": "C46",
   "status": "proved",
   "theorems": [
    "C46_silhouette",
    "C46_medoid_silhouette",
    "C46_fastermsc",
    "C46_overflow_refuted",
    "C46_empty_refuted"
   ],
   "note": "the ranges and error bounds are proved; beyond the bound on the entries and for an empty assignment NaN is exhibited"
  },
  {
   "property": "C47",
   "status": "proved",
   "theorems": [
    "C47_loss",
    "C47_exact_refuted"
   ],
   "note": "error bound proved, exactness refuted by a concrete input"
  },
  {
   "property": "C48",
   "status": "proved",
   "theorems": [
    "C48_msc_panics",
    "C48_build_panics",
    "C48_k2_panics",
    "C48_silhouette_panics",
    "C48_result_valid",
    "C48_k2_k_gt_n_refuted",
    "C48_single_refuted"
   ],
   "note": "Refuted for k = 1 and for k = 2 with a repeated medoid, where the checks are skipped; proved otherwise."
  },
  {
   "property": "C49",
   "status": "proved",
   "theorems": [
    "C49_fixpoints",
    "C49_restart"
   ],
   "note": ""
  },
  {
   "property": "C50",
   "status": "proved",
   "theorems": [
    "C50_alternating_stays",
    "C50_alternating_after_swap",
    "C50_converse_refuted"
   ],
   "note": ""
  },
  {
   "property": "C51",
   "status": "proved",
   "theorems": [
    "C51_msc_fixpoints",
    "C51_msc_restart"
   ],
   "note": ""
  },
  {
   "property": "C52",
   "status": "proved",
   "theorems": [
    "C52_fasterpam_is_eager_search",
    "C52_rand_fasterpam_is_eager_search"
   ],
   "note": ""
  },
  {
   "property": "C53",
   "status": "proved",
   "theorems": [
    "C53_pam_is_steepest_descent",
    "C53_build_is_greedy",
    "C53_pam_is_greedy_descent"
   ],
   "note": ""
  },
  {
   "property": "C54",
   "status": "proved",
   "theorems": [
    "C54_msc_are_plain_searches",
    "C54_pammedsil_is_greedy_descent"
   ],
   "note": ""
  },
  {
   "property": "C55",
   "status": "proved",
   "theorems": [
    "C55_alternating_is_lloyd",
    "C55_pamsil_build_is_greedy"
   ],
   "note": ""
  },
  {
   "property": "C56",
   "status": "proved",
   "theorems": [
    "C56_scale_fasterpam",
    "C56_scale_pam",
    "C56_scale_alternating",
    "C56_scale_msc",
    "C56_scale_pammedsil",
    "C56_scale_dynmsc"
   ],
   "note": ""
  },
  {
   "property": "C57",
   "status": "proved",
   "theorems": [
    "C57_relabel"
   ],
   "note": ""
  },
  {
   "property": "C58",
   "status": "proved",
   "theorems": [
    "C58_resume_pam",
    "C58_resume_msc",
    "C58_resume_alternating"
   ],
   "note": ""
  },
  {
   "property": "C59",
   "status": "proved",
   "theorems": [
    "C59_dynmsc_is_shrinking_search",
    "C59_five_medoids_refuted"
   ],
   "note": "proved for at most four initial medoids, refuted for five by a concrete input"
  },
  {
   "property": "C60",
   "status": "proved",
   "theorems": [
    "C60_fasterpam",
    "C60_fastpam1_pam",
    "C60_integers",
    "C60_medoid_silhouette",
    "C60_medoid_silhouette_integers",
    "C60_alternating_refuted",
    "C60_nan_refuted"
   ],
   "note": "refuted for alternating and for NaN by concrete inputs"
  },
  {
   "property": "C61",
   "status": "proved",
   "theorems": [
    "C61_fastpam1_pam",
    "C61_metric",
    "C61_enough_iterations",
    "C61_fasterpam",
    "C61_stall_refuted",
    "C61_stall_pam_refuted"
   ],
   "note": "the stronger claim that the returned medoids themselves are nearly optimal is refuted by concrete inputs"
  },
  {
   "property": "C62",
   "status": "proved",
   "theorems": [
    "C62_quality",
    "C62_termination",
    "C62_metric"
   ],
   "note": ""
  },
  {
   "property": "C63",
   "status": "proved",
   "theorems": [
    "C63_fastmsc_pammedsil",
    "C63_fastermsc",
    "C63_enough_iterations"
   ],
   "note": ""
  },
  {
   "property": "C64",
   "status": "proved",
   "theorems": [
    "C64_build",
    "C64_pam",
    "C64_pam_consistent",
    "C64_pam_enough",
    "C64_single",
    "C64_single_refuted",
    "C64_alternating"
   ],
   "note": "C64_single_refuted shows that the error term cannot be dropped."
  },
  {
   "property": "C65",
   "status": "proved",
   "theorems": [
    "C65_pammedsil",
    "C65_dynmsc",
    "C65_dynmsc_drops"
   ],
   "note": "for five or more initial medoids the claims about loss and assignment are restricted as in C31"
  },
  {
   "property": "C66",
   "status": "proved",
   "theorems": [
    "C66_silhouette",
    "C66_par_silhouette",
    "C66_tiny_refuted",
    "C66_pamsil_swap",
    "C66_pamsil_swap_returns",
    "C66_pamsil"
   ],
   "note": "C66_tiny_refuted shows that the lower limit for the entries is needed."
  },
  {
   "property": "C67",
   "status": "proved",
   "theorems": [
    "C67_conversion",
    "C67_total_deviation",
    "C67_build_alternating",
    "C67_medoid_silhouette",
    "C67_pammedsil_dynmsc",
    "C67_silhouette",
    "C67_pamsil",
    "C67_termination",
    "C67_overflow_refuted"
   ],
   "note": "C67_overflow_refuted shows that the limit for fastmsc and fastermsc is needed."
  },
  {
   "property": "C68",
   "status": "proved",
   "theorems": [
    "C68_fastpam1_pam",
    "C68_fasterpam",
    "C68_pam",
    "C68_single",
    "C68_alternating",
    "C68_termination",
    "C68_par_termination",
    "C68_enough_iterations",
    "C68_stall_refuted",
    "C68_overflow_refuted"
   ],
   "note": "C68_stall_refuted and C68_overflow_refuted show that the exceptions are needed."
  },
  {
   "property": "C69",
   "status": "proved",
   "theorems": [
    "C69_dynmsc",
    "C69_dynmsc_integers",
    "C69_dynmsc_f32"
   ],
   "note": ""
  },
  {
   "property": "C70",
   "status": "proved",
   "theorems": [
    "C70_signed",
    "C70_unsigned",
    "C70_signed_msc",
    "C70_unsigned_msc",
    "C70_f32",
    "C70_bounded",
    "C70_overflow_refuted"
   ],
   "note": "C70_overflow_refuted shows that the condition for fastermsc and fastmsc is needed."
  },
  {
   "property": "C71",
   "status": "proved",
   "theorems": [
    "C71_fasterpam",
    "C71_fastpam1_pam",
    "C71_pam",
    "C71_f32",
    "C71_like_exact",
    "C71_ties_refuted"
   ],
   "note": "C71_ties_refuted shows that the condition is needed."
  },
  {
   "property": "C72",
   "status": "proved",
   "theorems": [
    "C72_fastermsc",
    "C72_fastmsc_pammedsil",
    "C72_f32",
    "C72_pammedsil",
    "C72_like_exact",
    "C72_pammedsil_like_exact",
    "C72_ties_refuted",
    "C72_agree_refuted"
   ],
   "note": "C72_ties_refuted and C72_agree_refuted show that the condition is needed."
  },
  {
   "property": "C73",
   "status": "proved",
   "theorems": [
    "C73_floyd",
    "C73_read",
    "C73_main",
    "C73_overflow",
    "C73_bad_lines",
    "C73_first_line",
    "C73_unparsed",
    "C73_refuted"
   ],
   "note": "The claim that the program as written computes the distances is refuted (C73_refuted, and C73_overflow in general); C73_read and C73_main hold for a smaller value for missing edges and for complete graphs."
  },
  {
   "property": "C74",
   "status": "proved",
   "theorems": [
    "C74_sqrt",
    "C74_read",
    "C74_bad_files",
    "C74_triangle",
    "C74_main",
    "C74_metric_refuted"
   ],
   "note": "C74_metric_refuted shows that the triangle inequality does not hold exactly. The order of summation in the scalar product is a parameter; the allocation of the matrix is not limited."
  },
  {
   "property": "C75",
   "status": "proved",
   "theorems": [
    "C75_fasterpam",
    "C75_pam_swap",
    "C75_rounding",
    "C75_exact_refuted"
   ],
   "note": "C75_exact_refuted shows that the slack is needed."
  },
  {
   "property": "C76",
   "status": "proved",
   "theorems": [
    "C76_bench",
    "C76_i32"
   ],
   "note": "The random number generator is an arbitrary sequence of numbers from 1 to 9999; the measurement of time is not modelled."
  },
  {
   "property": "C77",
   "status": "proved",
   "theorems": [
    "C77_debug_or_release",
    "C77_exact_or_overflow",
    "C77_returned_is_optimal",
    "C77_no_overflow",
    "C77_overflow_refuted"
   ],
   "note": "C77_overflow_refuted shows that the bound is needed. Only losses are checked: the silhouette functions, whose losses are floating point numbers in practice, are not covered."
  },
  {
   "property": "C78",
   "status": "proved",
   "theorems": [
    "C78_fasterpam",
    "C78_one_pass",
    "C78_pam_swap",
    "C78_build",
    "C78_pam",
    "C78_alternating",
    "C78_exact",
    "C78_f64_fasterpam",
    "C78_f64_pam_swap",
    "C78_f64_build",
    "C78_f64_pam",
    "C78_alternating_refuted",
    "C78_alike_refuted"
   ],
   "note": "C78_alternating_refuted and C78_alike_refuted show that the assumptions are needed."
  },
  {
   "property": "C79",
   "status": "proved",
   "theorems": [
    "C79_swap_algorithms",
    "C79_pam",
    "C79_any_loss",
    "C79_pammedsil",
    "C79_dynmsc",
    "C79_groups",
    "C79_f64",
    "C79_f64_pammedsil",
    "C79_f64_dynmsc",
    "C79_f64_groups",
    "C79_k2_refuted"
   ],
   "note": "C79_k2_refuted shows that the exception for two medoids and duplicate objects is needed. pammedsil together with its BUILD, and dynmsc, are covered for exact losses and for binary64; the other algorithms for any loss type."
  },
  {
   "property": "C80",
   "status": "proved",
   "theorems": [
    "C80_same",
    "C80_faster",
    "C80_fastpam1_pam",
    "C80_faster_than_pam",
    "C80_fastmsc_pammedsil",
    "C80_faster_than_pammedsil",
    "C80_single",
    "C80_build_pam",
    "C80_alternating",
    "C80_silhouettes"
   ],
   "note": "Only reads of the matrix are counted, not other operations, and not those of debug assertions; par_fasterpam, pamsil, dynmsc and the BUILD of pammedsil: C82."
  },
  {
   "property": "C81",
   "status": "proved",
   "theorems": [
    "C81_renamed",
    "C81_medoid_renamed",
    "C81_unused_label",
    "C81_labels",
    "C81_labels_f64",
    "C81_medoid_order",
    "C81_nan_refuted",
    "C81_objects_f64_refuted"
   ],
   "note": "The last two theorems show that the restrictions are needed."
  },
  {
   "property": "C82",
   "status": "proved",
   "theorems": [
    "C82_same",
    "C82_build",
    "C82_pammedsil",
    "C82_pamsil",
    "C82_pamsil_build",
    "C82_dynmsc",
    "C82_par"
   ],
   "note": "Only reads of the matrix are counted, not other operations, and not those of debug assertions."
  },
  {
   "property": "C83",
   "status": "proved",
   "theorems": [
    "C83_signed",
    "C83_unsigned",
    "C83_signed_fits",
    "C83_unsigned_fits",
    "C83_returned",
    "C83_overflow_refuted"
   ],
   "note": "C83_overflow_refuted shows that the bound is needed. Which of several panics comes first within one step is not modelled."
  },
  {
   "property": "C84",
   "status": "proved",
   "theorems": [
    "C84_silhouette_integer",
    "C84_silhouette_values",
    "C84_silhouette_distinct",
    "C84_medoid_silhouette",
    "C84_pamsil_integer",
    "C84_machine_integers",
    "C84_pamsil_optimal_refuted",
    "C84_overflow_refuted"
   ],
   "note": "C84_machine_integers transfers the rest to w-bit integers within a bound, and C84_overflow_refuted shows that a bound is needed. C84_pamsil_optimal_refuted: the claim of a local optimum (C36) fails for integer losses."
  },
  {
   "property": "C85",
   "status": "proved",
   "theorems": [
    "C85_debug_or_model",
    "C85_no_division_by_zero",
    "C85_exact_or_panic",
    "C85_no_overflow",
    "C85_overflow_refuted"
   ],
   "note": "C85_overflow_refuted shows that the bound is needed. Which of several panics comes first within one step is not modelled; range of w: 2^32-1 is representable."
  },
  {
   "property": "C86",
   "status": "proved",
   "theorems": [
    "C86_build",
    "C86_pam",
    "C86_pamsil_build",
    "C86_pammedsil_build",
    "C86_binary64",
    "C86_build_factor_refuted",
    "C86_alternating_factor_refuted"
   ],
   "note": "C86_build_factor_refuted: no constant factor, and the bound of one half is missed by 1 only. For pammedsil only if its BUILD does not stop early."
  },
  {
   "property": "C87",
   "status": "proved",
   "theorems": [
    "C87_two_groups",
    "C87_kept",
    "C87_pammedsil",
    "C87_f64_two_groups",
    "C87_f64_kept",
    "C87_f64_pammedsil",
    "C87_stuck_refuted",
    "C87_remote_refuted"
   ],
   "note": "C87_stuck_refuted and C87_remote_refuted show that the assumptions on the start and on S are needed."
  },
  {
   "property": "C88",
   "status": "proved",
   "theorems": [
    "C88_certificate",
    "C88_two_groups",
    "C88_kept",
    "C88_f64_certificate",
    "C88_f64_kept",
    "C88_stuck_refuted",
    "C88_nested_refuted"
   ],
   "note": "C88_stuck_refuted and C88_nested_refuted show that two groups and the distances within the groups are needed for (b). Up to four initial medoids: for five and more, the listed values may be wrong (C31)."
  },
  {
   "property": "C89",
   "status": "proved",
   "theorems": [
    "C89_build",
    "C89_pammedsil_build",
    "C89_pamsil_build",
    "C89_build_loss",
    "C89_pam_refuted"
   ],
   "note": "C89_pam_refuted: not so for PAM with its swaps. For pammedsil any loss type with 0 <= 0."
  },
  {
   "property": "C90",
   "status": "proved",
   "theorems": [
    "C90_pam_family",
    "C90_msc_family",
    "C90_one",
    "C90_one_f64",
    "C90_dynmsc",
    "C90_pam_build",
    "C90_pammedsil_refuted"
   ],
   "note": "C90_pammedsil_refuted: not so for pammedsil with its own BUILD."
  },
  {
   "property": "C91",
   "status": "proved",
   "theorems": [
    "C91_fasterpam",
    "C91_fastpam1_pam",
    "C91_plain_searches",
    "C91_zero_refuted"
   ],
   "note": "C91_zero_refuted: with loss zero, repeated medoids may stay."
  },
  {
   "property": "C92",
   "status": "proved",
   "theorems": [
    "C92_pam_family",
    "C92_pam",
    "C92_msc_family",
    "C92_two_missing_refuted"
   ],
   "note": "C92_two_missing_refuted: with n - 2 medoids the searches may stay in a local optimum."
  },
  {
   "property": "C93",
   "status": "proved",
   "theorems": [
    "C93_limit",
    "C93_pamsil",
    "C93_dynmsc",
    "C93_more_pam",
    "C93_more_par_alternating",
    "C93_more_msc",
    "C93_more_dynmsc_refuted"
   ],
   "note": "C93_more_dynmsc_refuted: more iterations may lead DynMSC to a worse result."
  },
  {
   "property": "C94",
   "status": "proved",
   "theorems": [
    "C94_swap_algorithms",
    "C94_pam",
    "C94_f64_fasterpam",
    "C94_alternating_refuted",
    "C94_msc_refuted"
   ],
   "note": "C94_alternating_refuted and C94_msc_refuted: these algorithms may return duplicates as medoids."
  },
  {
   "property": "C95",
   "status": "proved",
   "theorems": [
    "C95_pam_family",
    "C95_msc_family",
    "C95_ties_refuted"
   ],
   "note": "C95_ties_refuted: with ties the order matters."
  },
  {
   "property": "C96",
   "status": "proved",
   "theorems": [
    "C96_swap_algorithms",
    "C96_pam",
    "C96_f64_fasterpam",
    "C96_alternating_refuted"
   ],
   "note": "C96_alternating_refuted: the alternating algorithm may leave an outlier in another cluster."
  },
  {
   "property": "C97",
   "status": "proved",
   "theorems": [
    "C97_one_more",
    "C97_alternating",
    "C97_f64",
    "C97_pam_refuted",
    "C97_msc_refuted"
   ],
   "note": "C97_pam_refuted: started from BUILD, more medoids may mean a larger loss. C97_msc_refuted: fastermsc from its own result and one more object may return a smaller medoid silhouette, whichever object it is."
  },
  {
   "property": "C98",
   "status": "proved",
   "theorems": [
    "C98_pam_family",
    "C98_msc_family"
   ],
   "note": ""
  },
  {
   "property": "C99",
   "status": "proved",
   "theorems": [
    "C99_parts",
    "C99_msc_refuted"
   ],
   "note": "C99_msc_refuted: not so for the medoid silhouette."
  },
  {
   "property": "C100",
   "status": "proved",
   "theorems": [
    "C100_copies_of_medoids",
    "C100_other_copies_refuted",
    "C100_msc_refuted"
   ],
   "note": "C100_other_copies_refuted: copies of an object which is no medoid may change the result. C100_msc_refuted: copies of medoids may change the result of fastermsc."
  },
  {
   "property": "C101",
   "status": "proved",
   "theorems": [
    "C101_reinforced",
    "C101_within_clusters_refuted",
    "C101_msc_refuted"
   ],
   "note": "C101_within_clusters_refuted: if objects of a cluster come closer to each other only, the medoids may change. C101_msc_refuted: not so for the medoid silhouette."
  },
  {
   "property": "C102",
   "status": "proved",
   "theorems": [
    "C102_every_partition",
    "C102_msc"
   ],
   "note": ""
  },
  {
   "property": "C103",
   "status": "proved",
   "theorems": [
    "C103_repeated",
    "C103_msc_refuted"
   ],
   "note": "C103_msc_refuted: not so for the medoid silhouette."
  }
 ]
}