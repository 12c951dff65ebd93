{
 "claims": [
  {
   "property": "C01",
   "status": "proved",
   "theorems": [
    "C01_make_exact_iff",
    "C01_add_exact_iff",
    "C01_add_ub_iff",
    "C01_add_silent_wrap",
    "C01_sub_exact_iff",
    "C01_sub_ub_iff",
    "C01_assign_forms",
    "C01_history_exact",
    "C01_history_normal",
    "C01_setTime_accurate",
    "C01_setTime_defined",
    "C01_setTime_getTime"
   ],
   "note": "exact characterisation of defined / wrapped / undefined results; setTime(double) in exact arithmetic"
  },
  {
   "property": "C02",
   "status": "proved",
   "theorems": [
    "C02_compare_agrees_with_time",
    "C02_trichotomy",
    "C02_boolean_combinations",
    "C02_transitive"
   ],
   "note": ""
  },
  {
   "property": "C03",
   "status": "proved",
   "theorems": [
    "C03_add_sub_cancel",
    "C03_sub_add_cancel",
    "C03_add_comm",
    "C03_sub_self",
    "C03_add_monotone"
   ],
   "note": ""
  },
  {
   "property": "C04",
   "status": "partial",
   "theorems": [
    "C04_count",
    "C04_holes_zero_partial",
    "C04_holes_zero_refuted",
    "C04_defined_iff"
   ],
   "note": "the count half is proved for every history; the zero-weight-of-empty-slots half is false when setWeight is called on an empty slot (refuted) and proved otherwise; exact definedness of every call proved"
  },
  {
   "property": "C05",
   "status": "proved",
   "theorems": [
    "C05_prune_exact"
   ],
   "note": ""
  },
  {
   "property": "C06",
   "status": "proved",
   "theorems": [
    "C06_merge_conserves",
    "C06_merge_zero_iff"
   ],
   "note": ""
  },
  {
   "property": "C07",
   "status": "partial",
   "theorems": [
    "C07_weightSum_partial",
    "C07_normalize_partial",
    "C07_after_prune",
    "C07_weightSum_error",
    "C07_refuted"
   ],
   "note": "false for mixtures with empty slots: refuted, exact error term proved, and proved for mixtures without empty slots (in particular after prune)"
  },
  {
   "property": "C08",
   "status": "partial",
   "theorems": [
    "C08_copyTo_equal",
    "C08_copy_ctor_equal",
    "C08_independent",
    "C08_memory",
    "C08_copy_ctor_ub_iff",
    "C08_self_copy_ub_iff",
    "C08_refuted"
   ],
   "note": "equality, independence and memory accounting proved for every defined history; copying a mixture onto itself or copy-constructing from one with empty slots is undefined behaviour: exact conditions proved, refuted by witness"
  },
  {
   "property": "C09",
   "status": "partial",
   "theorems": [
    "C09_pruneTracks_partial",
    "C09_ub_iff",
    "C09_refuted"
   ],
   "note": "exact: correct result unless the list ends with a block of tracks to prune one of which holds a Gaussian; in that case use after free (iff, witness)"
  },
  {
   "property": "C10",
   "status": "proved",
   "theorems": [
    "C10_hungarian_optimal"
   ],
   "note": "for integer matrices of every size, tolerances read as exact zero tests"
  },
  {
   "property": "C11",
   "status": "proved",
   "theorems": [
    "C11_hungarian_restores"
   ],
   "note": "including entries outside the block"
  },
  {
   "property": "C12",
   "status": "partial",
   "theorems": [
    "C12_unreduced_partial",
    "C12_reduced_partial",
    "C12_refuted",
    "C12_direction_refuted"
   ],
   "note": "soln and cost proved optimal for the clamped matrix when the direction agrees with the kind of limit (refuted otherwise); the return value is true only if nothing is left to solve: refuted by witness, exact value proved"
  },
  {
   "property": "C13",
   "status": "proved",
   "theorems": [
    "C13_reduce"
   ],
   "note": "integer matrices of every size, both kinds of limit"
  },
  {
   "property": "C14",
   "status": "partial",
   "theorems": [
    "C14_exact",
    "C14_refuted"
   ],
   "note": "false (witness); exact effect of the second call proved: unchanged iff every row has a fixed entry, otherwise the reduced size doubles"
  },
  {
   "property": "C15",
   "status": "proved",
   "theorems": [
    "C15_partition",
    "C15_components_exist"
   ],
   "note": "for every component numbering meeting the contract of boost::connected_components, which is shown to be satisfiable for every matrix; integer entries"
  },
  {
   "property": "C16",
   "status": "partial",
   "theorems": [
    "C16_exact",
    "C16_same_flag_partial",
    "C16_refuted",
    "C16_size_refuted"
   ],
   "note": "exact behaviour of every call history and of the destructor proved; false when the flags differ between calls (witness: too small a matrix, then out-of-bounds delete); proved when one flag is used per partition; getPartitionSize before partition() is a NULL dereference"
  },
  {
   "property": "C17",
   "status": "proved",
   "theorems": [
    "C17_factorises",
    "C17_sum_unique"
   ],
   "note": "Exact rationals; every table without negative entries, every size, every numbering of the components."
  },
  {
   "property": "C18",
   "status": "partial",
   "theorems": [
    "C18_loss_partial",
    "C18_cut_refuted",
    "C18_value_partial",
    "C18_exact_partial",
    "C18_seen_partial",
    "C18_kbest_exists",
    "C18_refuted"
   ],
   "note": "False of the code (C18_refuted: landmarks without significant entry contribute Pd instead of 1 - Pd). C18_value_partial gives the exact value returned for all inputs (an upper bound if some component is both large and has more than 200 hypotheses); C18_exact_partial: it is the association sum in which those landmarks are missed with probability Pd; C18_seen_partial: correct when every landmark has a significant entry and large components have at most 200 hypotheses. C18_cut_refuted: with five landmarks and four measurements the filter returns 200/501 of the sum, for every implementation of Murty's algorithm; C18_loss_partial: a lower bound for all inputs, which this case attains. Exact rationals, exp/log replaced by products; Murty's algorithm through kbest_contract (met by kbest_ref)."
  },
  {
   "property": "C19",
   "status": "proved",
   "theorems": [
    "C19_best_first",
    "C19_queue_exists"
   ],
   "note": "every n and matrix whose entries are outweighed by the exclusion constant; priority queue is any function meeting queue_contract (one is given)"
  },
  {
   "property": "C20",
   "status": "partial",
   "theorems": [
    "C20_bounded_partial",
    "C20_refuted"
   ],
   "note": "false for the default constant (witness: one entry of -50000, the first assignment is repeated); proved when (2n-1)*max|C| < 10000"
  },
  {
   "property": "C21",
   "status": "partial",
   "theorems": [
    "C21_block_partial",
    "C21_refuted",
    "C21_filters_partial"
   ],
   "note": "order, scores, no repeated full assignment, completeness over real associations proved for all block sizes; uniqueness of real associations is false (witness), but holds for matrices in which an unassigned row has one column above a score (C21_filters_partial), the form the filters build"
  },
  {
   "property": "C22",
   "status": "proved",
   "theorems": [
    "C22_lexicographic",
    "C22_empty"
   ],
   "note": "nM+nZ >= 1; the excluded empty case is shown to be undefined behaviour"
  },
  {
   "property": "C23",
   "status": "partial",
   "theorems": [
    "C23_exact",
    "C23_maximise_partial",
    "C23_queue_exists",
    "C23_refuted",
    "C23_matrix_refuted"
   ],
   "note": "maximisation proved; for minimisation all n! assignments with their right scores are proved, but the order is still largest first and the caller's matrix stays negated (two witnesses)"
  },
  {
   "property": "C24",
   "status": "proved",
   "theorems": [
    "C24_permanent",
    "C24_not_square",
    "C24_empty_refuted",
    "C24_permutations_exist"
   ],
   "note": "every n >= 1 over the rationals; for n = 0 the code returns -2 (shown)"
  },
  {
   "property": "C25",
   "status": "partial",
   "theorems": [
    "C25_counts_partial",
    "C25_within_one",
    "C25_zero_weight_partial",
    "C25_all_zero",
    "C25_refuted"
   ],
   "note": "proved for every weight vector, size and draw u in (0,1); for u = 0, which drand48 can return, within one of the expected count is proved and the floor/ceiling claim and the zero-weight claim are false (witness); all-zero weights: every slot descends from particle 0"
  },
  {
   "property": "C26",
   "status": "proved",
   "theorems": [
    "C26_slots"
   ],
   "note": "every selection, size and draw; hypothesis: all particles carry extra data (without: C59)"
  },
  {
   "property": "C27",
   "status": "partial",
   "theorems": [
    "C27_fresh_partial",
    "C27_parent_partial",
    "C27_add_refuted",
    "C27_ids_refuted",
    "C27_parent_refuted"
   ],
   "note": "false after one resample (duplicate ids), after a second addParticles, and parent ids are wrong after a second resample (witnesses); proved for one addParticles followed by copyParticle calls, and for the parent ids of a resample from such a state"
  },
  {
   "property": "C28",
   "status": "partial",
   "theorems": [
    "C28_any_schedule_partial",
    "C28_serial_partial",
    "C28_refuted"
   ],
   "note": "false under interleavings of two threads (witness, shared x_km / x_k); proved for all schedules: each pose is the propagation of some old pose and trajectories are right; proved for schedules whose iterations do not overlap"
  },
  {
   "property": "C29",
   "status": "proved",
   "theorems": [
    "C29_caches"
   ],
   "note": "Refinement: every observation except likelihoods equals that of a machine that keeps only mean and covariance, for every sequence of operations on any number of objects."
  },
  {
   "property": "C30",
   "status": "partial",
   "theorems": [
    "C30_tracked_partial",
    "C30_refuted",
    "C30_assign_refuted"
   ],
   "note": "False in general: getCovDet before the first likelihood, or operator= from an object with a computed determinant, leaves gaussian_pdf_factor_ uninitialised or stale (C30_refuted, C30_assign_refuted). Proved for all other histories (C30_tracked_partial)."
  },
  {
   "property": "C31",
   "status": "partial",
   "theorems": [
    "C31_history_partial",
    "C31_remove_partial",
    "C31_refuted",
    "C31_remove_outside_refuted"
   ],
   "note": "False as stated (C31_refuted: a point on a face of an old root box can no longer be removed after the root doubled; C31_remove_outside_refuted: removing a point outside the root box dereferences a null pointer). Proved for every history, dimension and box size: the answers are those of a multiset of points, all counts are exact, every addData terminates, and removal of a stored point fails only if one of its coordinates is a multiple of the smallest box size. Exact rationals; a point does not move while it is stored."
  },
  {
   "property": "C32",
   "status": "proved",
   "theorems": [
    "C32_box_sound"
   ],
   "note": "Over every state reached by a history of calls: termination, sub-multiset of the stored points, all in the closed box. Exact rationals."
  },
  {
   "property": "C33",
   "status": "partial",
   "theorems": [
    "C33_box_complete_partial",
    "C33_refuted"
   ],
   "note": "False as stated (C33_refuted: a point on the common face of two cells). Proved: a stored point in the closed query box is missed only if it lies on a face of the query box in a coordinate that is a multiple of the smallest box size."
  },
  {
   "property": "C34",
   "status": "proved",
   "theorems": [
    "C34_closest"
   ],
   "note": "Over every state reached by a history: termination, the result is stored and no stored point is nearer; on an empty index a null pointer is dereferenced. Exact rationals, squared distances."
  },
  {
   "property": "C35",
   "status": "proved",
   "theorems": [
    "C35_ospa_least",
    "C35_ospa_parts",
    "C35_ospa_range",
    "C35_ospa_symmetric",
    "C35_ospa_zero"
   ],
   "note": "Exact integer distances (as for the Hungarian method). Least cost over all partial matchings, range, symmetry, zero exactly for equal multisets, reported parts and reported pairs; two empty sets give 0/0 (DivByZero outcome)."
  },
  {
   "property": "C36",
   "status": "partial",
   "theorems": [
    "C36_refuted",
    "C36_order_refuted",
    "C36_ospa_order_partial"
   ],
   "note": "False as stated (C36_refuted: p = 2; C36_order_refuted: for p = 2 the error depends on the order of the elements and of the sets). Proved for every natural order p: the sum of p-th powers is at most n^(p-1) times the least one. p is a natural number; errors are compared through their p-th powers."
  },
  {
   "property": "C37",
   "status": "proved",
   "theorems": [
    "C37_cola_value",
    "C37_cola_least",
    "C37_cola_symmetric",
    "C37_cola_zero"
   ],
   "note": "Exact integer distances; general p through p-th powers."
  },
  {
   "property": "C38",
   "status": "partial",
   "theorems": [
    "C38_result_partial",
    "C38_total_partial",
    "C38_distinct_refuted",
    "C38_max_refuted",
    "C38_order_refuted",
    "C38_null_refuted",
    "C38_shape_refuted"
   ],
   "note": "False as stated (C38_distinct_refuted, C38_max_refuted, C38_order_refuted, C38_null_refuted, C38_shape_refuted). Proved: distinct landmarks for all measurements but the first, joint tests as the code makes them, at most two associations fewer than any such hypothesis (tight, see C38_max_refuted), termination for every pop order. The joint distance and the chi-square quantile are arbitrary functions."
  },
  {
   "property": "C39",
   "status": "partial",
   "theorems": [
    "C39_conserved_partial",
    "C39_nonneg",
    "C39_refuted",
    "C39_below_one_refuted"
   ],
   "note": "Proved exactly, for every map, measurement set and table content, with non-negative weights, likelihoods and clutter. As stated it is false near the sensing limit (the code treats Pd as 1 and gives back unused weight) and without clutter (the sum is then 1): two witnesses. Exact rationals."
  },
  {
   "property": "C40",
   "status": "partial",
   "theorems": [
    "C40_bounds_partial",
    "C40_table_free",
    "C40_ownership",
    "C40_leak_refuted"
   ],
   "note": "No access outside the table, no shrinking and no influence of old entries, for every sequence of updates. The no-leak part is false: a gated Gaussian of weight 0 leaks its corrected landmark (witness and exact condition)."
  },
  {
   "property": "C41",
   "status": "partial",
   "theorems": [
    "C41_scan_partial",
    "C41_always_fails",
    "C41_measurement",
    "C41_count",
    "C41_waiting",
    "C41_direct",
    "C41_refuted"
   ],
   "note": "False of the code: whenever the last candidate leaves the list the scan increments the end iterator (exact condition, and proof that every candidate list gets there without further measurements; witness from a new filter). Everything else in the statement is proved for the calls that end normally."
  },
  {
   "property": "C42",
   "status": "partial",
   "theorems": [
    "C42_exact",
    "C42_right_iff_partial",
    "C42_refuted",
    "C42_ub_refuted"
   ],
   "note": "exact result and exact definedness of the compaction proved; right set of tracks iff the unused tracks among the last u come first; refuted by witness otherwise"
  },
  {
   "property": "C43",
   "status": "partial",
   "theorems": [
    "C43_existence_partial",
    "C43_refuted"
   ],
   "note": "Proved: success, probabilities in [0,1] and, for manageable groups of tracks and measurements, equality with the posterior over all joint events (and the particle weight factor with their sum), for all maps without a track that is certain to exist and to be seen. With such a track the update divides by zero (witness). For groups with more than 200 hypotheses only the bounds hold."
  },
  {
   "property": "C44",
   "status": "partial",
   "theorems": [
    "C44_settled_partial",
    "C44_update_partial",
    "C44_all_particles_partial",
    "C44_refuted"
   ],
   "note": "False of the code: when at most one row of the table has a competitor (e.g. every landmark matched by exactly one measurement) nothing is updated and pi[0] is written out of bounds (exact condition, witness). In all other cases, for all particles: proved that the particle is replaced by its branches under ranked consistent associations, the first of which is optimal, with weights and landmarks updated as specified (candidate count threshold 1, empty candidate lists)."
  },
  {
   "property": "C45",
   "status": "proved",
   "theorems": [
    "C45_best",
    "C45_no_ub"
   ],
   "note": "For all interleavings of the statements of evaluateLikelihoods (any distribution of iterations to threads), all random draws and all histories of evaluate and move after init: recorded best of every particle = greatest value evaluated for it, attained by the stored best trajectory and map; best particle = greatest value of all; equal vector lengths; no step reads out of bounds. Granularity: statements and the critical section are atomic; likelihood a function of trajectory and map, NaN not modelled. In the second evaluation of the example besti is not the best of the round, and the best particle is right all the same."
  },
  {
   "property": "C46",
   "status": "partial",
   "theorems": [
    "C46_random_partial",
    "C46_valid_partial",
    "C46_redraw_partial",
    "C46_refuted"
   ],
   "note": "False in random mode: a particle can be twice in its own neighbourhood (witness). Proved: the exact neighbourhood for all draws (itself, then those who drew it, increasing; repeated only itself and exactly when it drew itself after a smaller index did), and membership and validity in both modes."
  },
  {
   "property": "C47",
   "status": "partial",
   "theorems": [
    "C47_stored_partial",
    "C47_order_partial",
    "C47_refuted"
   ],
   "note": "False: std::sort(begin, begin) sorts nothing; inputs 5, 3 keep their order and a measurement at time 3 ends the program (witness). Proved for ascending times: stored at the first step of its time; exit if a later time exists; end iterator dereferenced if none does. For all call orders: times are those of the inputs in call order, and nothing is stored at a wrong time."
  },
  {
   "property": "C48",
   "status": "proved",
   "theorems": [
    "C48_matrix",
    "C48_matrix_run",
    "C48_step",
    "C48_run"
   ],
   "note": "Scalar filter over exact rationals: bounds of one correction (any pose uncertainty, noise, gating), information form of any sequence with rejected measurements left out. Also for matrices of any dimension over any ordered field: covariance symmetric, non-negative and not above the prior; information form of any sequence for sensors linear in the landmark (these two are not about rounding; gate and assert are in the scalar model, C76)."
  },
  {
   "property": "C49",
   "status": "partial",
   "theorems": [
    "C49_real_partial",
    "C49_double_partial",
    "C49_refuted",
    "C49_innovation_partial"
   ],
   "note": "Proved over the reals without restriction, with the innovation that results. In double precision the loops end exactly for finite angles up to 2^56 (proved) and run for ever beyond (2^57 and the infinities as witnesses). In double precision only the interval is proved, not the congruence, which rounding breaks."
  },
  {
   "property": "C50",
   "status": "partial",
   "theorems": [
    "C50_1d_partial",
    "C50_xy_partial",
    "C50_rb_partial",
    "C50_6d_partial",
    "C50_refuted",
    "C50_zero_refuted",
    "C50_quat_refuted"
   ],
   "note": "False at the edges: a bearing of exactly pi comes back as -pi, at range zero the bearing is lost, and a pose whose quaternion is not normalised changes the measurement (witnesses). Proved for 1D and XY without restriction, range-bearing for positive range and bearing in the half-open interval, 6D for unit quaternions."
  },
  {
   "property": "C51",
   "status": "proved",
   "theorems": [
    "C51_2d",
    "C51_6d",
    "C51_1d"
   ],
   "note": "All three families of code; over the reals."
  },
  {
   "property": "C52",
   "status": "partial",
   "theorems": [
    "C52_1d_partial",
    "C52_2d_partial",
    "C52_2d_run_partial",
    "C52_2d_rigid_partial",
    "C52_2d_zero_partial",
    "C52_6d_partial",
    "C52_6d_rigid_partial",
    "C52_6d_zero_partial",
    "C52_refuted",
    "C52_cov_refuted",
    "C52_quat_refuted"
   ],
   "note": "False at the edges: without displacement a heading outside the interval jumps by whole turns, the covariance is dropped, and with a quaternion that is not normalised steps do not compose (witnesses). Proved: composition of any number of steps in the plane (pose, time, covariance), as rigid motions of points; the same for unit quaternions in space and for one dimension; zero displacement for headings in the interval."
  },
  {
   "property": "C53",
   "status": "partial",
   "theorems": [
    "C53_max_partial",
    "C53_empty_ub",
    "C53_refuted"
   ],
   "note": "false for mixtures with empty slots (refuted), proved for those without; empty mixture is out of bounds"
  },
  {
   "property": "C54",
   "status": "partial",
   "theorems": [
    "C54_setWeight",
    "C54_updateGaussian_partial",
    "C54_updateGaussian_refuted",
    "C54_removeGaussian",
    "C54_addGaussian",
    "C54_multiplyWeights",
    "C54_addGM"
   ],
   "note": "all operations proved; updateGaussian at index = size is out of bounds instead of returning false (refuted)"
  },
  {
   "property": "C55",
   "status": "partial",
   "theorems": [
    "C55_sort_partial",
    "C55_refuted"
   ],
   "note": "stale sorted flag after multiplyWeights with a negative factor (refuted); proved when the flag is down"
  },
  {
   "property": "C56",
   "status": "partial",
   "theorems": [
    "C56_refuted",
    "C56_repeat_partial"
   ],
   "note": "false for one call (refuted); proved that as many calls as components reach a state without mergeable pair"
  },
  {
   "property": "C57",
   "status": "proved",
   "theorems": [
    "C57_copyTo"
   ],
   "note": ""
  },
  {
   "property": "C58",
   "status": "partial",
   "theorems": [
    "C58_decision_partial",
    "C58_default_refuted"
   ],
   "note": "decision proved when both thresholds are set; for a filter from ParticleFilter(n) without setEffectiveParticleCountThreshold the uninitialised percentage is read, for every n >= 1"
  },
  {
   "property": "C59",
   "status": "partial",
   "theorems": [
    "C59_with_data_partial",
    "C59_refuted"
   ],
   "note": "false: null dereference when a particle without data is duplicated (witness); proved when all particles carry data"
  },
  {
   "property": "C60",
   "status": "proved",
   "theorems": [
    "C60_ospa_triangle",
    "C60_cola_triangle"
   ],
   "note": "Exact integer distances."
  },
  {
   "property": "C61",
   "status": "partial",
   "theorems": [
    "C61_copies_partial",
    "C61_refuted"
   ],
   "note": "False when the parent slot comes before the copy (witness); exact description of what each slot works with in all cases."
  },
  {
   "property": "C62",
   "status": "partial",
   "theorems": [
    "C62_numbers_partial",
    "C62_refuted"
   ],
   "note": "False for an update without measurements directly after one with (witness); proved for every other order of calls."
  },
  {
   "property": "C63",
   "status": "partial",
   "theorems": [
    "C63_births_partial",
    "C63_no_map_partial",
    "C63_refuted"
   ],
   "note": "False of the code: the association sum is not divided by the likelihood of its partition (witness). Proved: candidates are distinct measurements with probability in (minPE, maxPE] and at most 1; unexplained measurements get maxPE."
  },
  {
   "property": "C64",
   "status": "partial",
   "theorems": [
    "C64_origin_partial",
    "C64_refuted"
   ],
   "note": "False of the code: the weights of corrected Gaussians contain their likelihood once more (witness). Proved: non-negative, sum to one, and only old Gaussians or corrections with measurements of positive association weight."
  },
  {
   "property": "C65",
   "status": "partial",
   "theorems": [
    "C65_posterior_partial",
    "C65_refuted"
   ],
   "note": "Proved for all histories with prior 1/2 (the default); false for other priors, the prior odds are multiplied in at every update (witness with prior 1/3)."
  },
  {
   "property": "C66",
   "status": "partial",
   "theorems": [
    "C66_distinct_partial",
    "C66_refuted"
   ],
   "note": "False of the code (witness: two equal particles). Proved when all pairs in sight are admissible and the numbers of landmarks and measurements differ by at most one."
  },
  {
   "property": "C67",
   "status": "partial",
   "theorems": [
    "C67_stale_partial",
    "C67_inherit_partial",
    "C67_refuted"
   ],
   "note": "False of the code after an update without resampling (witness); proved for all states after one with resampling."
  },
  {
   "property": "C68",
   "status": "partial",
   "theorems": [
    "C68_partial",
    "C68_refuted",
    "C68_stale_refuted"
   ],
   "note": "False after addInput (measurement one pose early, time_ read behind its end) and after a second setInputs (old measurements kept); witnesses. Proved for inputs handed over by setInputs and any measurements afterwards: right pose, right time differences, all reads in bounds."
  },
  {
   "property": "C69",
   "status": "partial",
   "theorems": [
    "C69_partial",
    "C69_refuted"
   ],
   "note": "False: the choice compares present likelihoods with the own record (witness from a run of two rounds). Proved for all swarms: exactly which neighbour is chosen, and that it has the greatest record if all neighbours are at their records."
  },
  {
   "property": "C70",
   "status": "partial",
   "theorems": [
    "C70_partial",
    "C70_refuted"
   ],
   "note": "False when the topology has the right size already (random topology kept, witness). Proved otherwise."
  },
  {
   "property": "C71",
   "status": "partial",
   "theorems": [
    "C71_partial",
    "C71_refuted"
   ],
   "note": "False: a best landmark is added twice when the particle is its own best neighbour (witness from a run of two moves). Proved for all maps, draws and distances: the exact multiset of (landmark, velocity) pairs, with optimal cut-off assignments; all accesses in bounds."
  },
  {
   "property": "C72",
   "status": "partial",
   "theorems": [
    "C72_valid_partial",
    "C72_invalid_partial",
    "C72_refuted"
   ],
   "note": "False when no measurement is expected and an output vector is shorter than the list (witness: std::out_of_range). Proved for all models otherwise, with the exact condition of the exception."
  },
  {
   "property": "C73",
   "status": "partial",
   "theorems": [
    "C73_partial",
    "C73_refuted"
   ],
   "note": "False: without a likelihood pointer the distance is not written (witness). Proved when the likelihood is asked for."
  },
  {
   "property": "C74",
   "status": "partial",
   "theorems": [
    "C74_partial",
    "C74_refuted"
   ],
   "note": "False without noise: the time stands still (witness). Proved with noise for all sequences."
  },
  {
   "property": "C75",
   "status": "partial",
   "theorems": [
    "C75_partial",
    "C75_refuted"
   ],
   "note": "False: the distance is computed without bringing the bearing difference back to one turn (witness -3 and 3: distance^2 36 instead of less than 4). Proved when the bearings are at most pi apart."
  },
  {
   "property": "C76",
   "status": "partial",
   "theorems": [
    "C76_partial",
    "C76_refuted"
   ],
   "note": "False with assertions compiled in: a corrected mean of zero aborts (witness). Proved: always returns without assertions, and exactly when it does with them."
  },
  {
   "property": "C77",
   "status": "partial",
   "theorems": [
    "C77_rb_partial",
    "C77_xy_partial",
    "C77_1d_partial",
    "C77_6d_partial",
    "C77_refuted"
   ],
   "note": "False for the pose rotation of the 6D model: the block has the wrong sign (witness). Proved for every smooth path for the 1D, XY and range-bearing models and for the landmark and position blocks of the 6D model."
  },
  {
   "property": "C78",
   "status": "partial",
   "theorems": [
    "C78_rb_partial",
    "C78_6d_partial",
    "C78_amplitude_partial",
    "C78_xy_partial",
    "C78_1d_partial",
    "C78_refuted"
   ],
   "note": "False for the XY and 1D models with their default settings (witness). Proved for the range-bearing, amplitude and 6D models; exact value of the error for the other two."
  },
  {
   "property": "C79",
   "status": "proved",
   "theorems": [
    "C79_1d",
    "C79_xy",
    "C79_rb",
    "C79_6d"
   ],
   "note": "All four models; positive range for range-bearing, unit quaternion for 6D."
  },
  {
   "property": "C80",
   "status": "partial",
   "theorems": [
    "C80_1d_partial",
    "C80_xy_partial",
    "C80_rb_partial",
    "C80_6d_partial",
    "C80_refuted"
   ],
   "note": "False for the 6D model with a quaternion that is not normalised (witness). Proved for the other models and for unit quaternions."
  },
  {
   "property": "C81",
   "status": "partial",
   "theorems": [
    "C81_2d_partial",
    "C81_6d_partial",
    "C81_car_partial",
    "C81_refuted"
   ],
   "note": "False in one dimension: the time is never written (witness). Proved for sequences of the other models."
  },
  {
   "property": "C82",
   "status": "partial",
   "theorems": [
    "C82_2d_partial",
    "C82_1d_partial",
    "C82_refuted",
    "C82_exit_refuted"
   ],
   "note": "False in the plane: always the identity, so the turn of the displacement is missing (witness), and the 6D and car models end the program. Proved: the exact error along every smooth path, and one dimension."
  },
  {
   "property": "C83",
   "status": "partial",
   "theorems": [
    "C83_car_partial",
    "C83_car_turns_partial",
    "C83_2d_partial",
    "C83_refuted",
    "C83_noise_refuted"
   ],
   "note": "False for a car turning by more than a whole turn in one step and after additive noise (witnesses). Proved for all sequences of the car with smaller turns, and for odometry in the plane."
  },
  {
   "property": "C84",
   "status": "partial",
   "theorems": [
    "C84_partial",
    "C84_refuted"
   ],
   "note": "False for the heading after the motion, whose difference is not brought back to one turn (witness). Proved for the heading before and the input."
  },
  {
   "property": "C85",
   "status": "partial",
   "theorems": [
    "C85_partial",
    "C85_exact_partial",
    "C85_refuted",
    "C85_car_refuted"
   ],
   "note": "False for a default constructed model sampled with default arguments, and for a car constructed from its noise only (witnesses). Proved when noise is configured or not asked for."
  },
  {
   "property": "C86",
   "status": "partial",
   "theorems": [
    "C86_log_partial",
    "C86_lik_partial",
    "C86_refuted"
   ],
   "note": "False for likelihood, which writes the gradient of the logarithm (witness). Proved for logLikelihood in any dimension; the missing factor is proved for likelihood."
  },
  {
   "property": "C87",
   "status": "partial",
   "theorems": [
    "C87_partial",
    "C87_value_partial",
    "C87_refuted"
   ],
   "note": "False for a singular covariance: NaN becomes 0, a density of one (witness). Proved for regular covariances including infinite distances."
  },
  {
   "property": "C88",
   "status": "partial",
   "theorems": [
    "C88_partial",
    "C88_refuted"
   ],
   "note": "False after additive noise (witness). Proved for sequences of steps."
  },
  {
   "property": "C89",
   "status": "partial",
   "theorems": [
    "C89_partial",
    "C89_refuted"
   ],
   "note": "False for a track that is certain and always seen: 0/0 (witness). Proved for all other maps, with the exact values."
  },
  {
   "property": "C90",
   "status": "partial",
   "theorems": [
    "C90_partial",
    "C90_refuted"
   ],
   "note": "False if a track in view exists with certainty: weights are NaN (witness). Proved when all probabilities are below one: exactly the corrections, finite, not negative, sum one."
  },
  {
   "property": "C91",
   "status": "partial",
   "theorems": [
    "C91_partial",
    "C91_refuted"
   ],
   "note": "False if the only explaining track exists with certainty (witness). Proved as an equivalence when all probabilities are below one."
  },
  {
   "property": "C92",
   "status": "partial",
   "theorems": [
    "C92_partial",
    "C92_refuted"
   ],
   "note": "False for two measurements (witness: 3/5 expected, 2/3 held). Proved for one measurement and maps of any size."
  },
  {
   "property": "C93",
   "status": "partial",
   "theorems": [
    "C93_history_partial",
    "C93_births_partial",
    "C93_slots_partial",
    "C93_refuted",
    "C93_resampled_refuted"
   ],
   "note": "False after an update without measurements (out of bounds) and after resampling (births of another particle), witnesses. Proved: no bad access for histories without such an update; exactly one birth per unused measurement without resampling."
  },
  {
   "property": "C94",
   "status": "partial",
   "theorems": [
    "C94_partial",
    "C94_refuted"
   ],
   "note": "False for an update without measurements (witness). Proved for all others."
  },
  {
   "property": "C95",
   "status": "partial",
   "theorems": [
    "C95_value_partial",
    "C95_refuted"
   ],
   "note": "False: a missed landmark contributes Pd instead of 1-Pd (witness). Proved: exact value with that factor, upper bound beyond 201 associations per block, for associations unknown or all landmarks in view."
  },
  {
   "property": "C96",
   "status": "partial",
   "theorems": [
    "C96_landmark_partial",
    "C96_pose_partial",
    "C96_pair_partial",
    "C96_refuted"
   ],
   "note": "False for the pose (witness: the correction is not divided by the sum of the relative weights); the exact difference is proved, as are the landmark gradient and the gradient of a pair. Detection probabilities constant."
  },
  {
   "property": "C97",
   "status": "partial",
   "theorems": [
    "C97_partial",
    "C97_refuted",
    "C97_association_refuted"
   ],
   "note": "False with a landmark out of view, for the associations and for the segments (two witnesses). Proved with all landmarks in view."
  },
  {
   "property": "C98",
   "status": "partial",
   "theorems": [
    "C98_partial",
    "C98_blocks_partial",
    "C98_refuted"
   ],
   "note": "False if known and unknown associations meet in one block (witness, for every ranking). Proved otherwise, with the blocks of the partition."
  },
  {
   "property": "C99",
   "status": "partial",
   "theorems": [
    "C99_map_partial",
    "C99_refuted"
   ],
   "note": "False if the associations leave a number out (witness: default landmark). Exact content proved for all scans and draws."
  },
  {
   "property": "C100",
   "status": "proved",
   "theorems": [
    "C100_init",
    "C100_load",
    "C100_onto",
    "C100_gradient"
   ],
   "note": "init, Evaluate and the gradient array, all sizes."
  },
  {
   "property": "C101",
   "status": "partial",
   "theorems": [
    "C101_partial",
    "C101_refuted"
   ],
   "note": "False in the plane (witness: derivative 1, gradient 0). Proved for predictions that add the input."
  },
  {
   "property": "C102",
   "status": "partial",
   "theorems": [
    "C102_partial",
    "C102_refuted"
   ],
   "note": "False without inputs, after addInput, and for too few associations (witnesses). Proved after setInputs with at least one input."
  },
  {
   "property": "C103",
   "status": "partial",
   "theorems": [
    "C103_partial",
    "C103_refuted"
   ],
   "note": "False across the border of the bearing (witness). Proved for independent components and bearings at most half a turn apart."
  },
  {
   "property": "C104",
   "status": "partial",
   "theorems": [
    "C104_factor_partial",
    "C104_refuted",
    "C104_empty_refuted"
   ],
   "note": "False of the code. C104_factor_partial gives the factor for all non-empty maps: exp(+ expected number of landmarks) times the product of clutter plus support. C104_refuted: for every strictly increasing exp a landmark out of view or a missed one raises the weight; C104_empty_refuted: an empty map leaves the weight as it is."
  },
  {
   "property": "C105",
   "status": "proved",
   "theorems": [
    "C105"
   ],
   "note": "For any sorting function that meets its contract (sort_ref does), all maps below 2^31 Gaussians, all int settings other than 0; the points are found again without reading out of bounds."
  },
  {
   "property": "C106",
   "status": "partial",
   "theorems": [
    "C106_value_partial",
    "C106_contracts_exist",
    "C106_refuted"
   ],
   "note": "False of the code (C106_refuted: a missed landmark contributes Pd instead of 1 - Pd). C106_value_partial: the formula for all inputs with that exchange (swapped), an upper bound if a component has more than 8 rows and columns and more than 200 hypotheses; non-empty maps, at least one evaluation point configured. Exact rationals, exp and Gaussian densities arbitrary functions."
  },
  {
   "property": "C107",
   "status": "partial",
   "theorems": [
    "C107_partial",
    "C107_refuted"
   ],
   "note": "False of the code (C107_refuted: an empty map gives the smallest double). C107_partial: for all non-empty maps the factor is product of clutter intensities / clutter integral * exp 0."
  },
  {
   "property": "C108",
   "status": "partial",
   "theorems": [
    "C108_partial",
    "C108_empty_partial",
    "C108_refuted"
   ],
   "note": "False of the code (C108_refuted: empty map or number of points 0 loses the weight; C108_empty_partial for all settings). C108_partial: for all non-empty maps and settings other than 0 there is such a factor, with and without the cluster option."
  },
  {
   "property": "C109",
   "status": "partial",
   "theorems": [
    "C109_factor_partial",
    "C109_refuted",
    "C109_empty_refuted"
   ],
   "note": "False of the code (C109_refuted: the probability of existence does not enter; C109_empty_refuted: factor 1 for an empty map). C109_factor_partial: the factor is the association sum with all tracks in view existing and Pd for 1 - Pd of unseen tracks; upper bound for large components."
  },
  {
   "property": "C110",
   "status": "partial",
   "theorems": [
    "C110_count_partial",
    "C110_bounds_partial",
    "C110_refuted",
    "C110_zero_refuted"
   ],
   "note": "Exact count for all settings (C110_count_partial), between n and 2n, n when n divides the number of steps; refuted: 34 landmarks for 100 steps and 30 asked; division by zero for none."
  },
  {
   "property": "C111",
   "status": "partial",
   "theorems": [
    "C111_partial",
    "C111_xy_partial",
    "C111_refuted"
   ],
   "note": "Holds for the range-bearing sensor; refuted for the Cartesian sensor, where (range, bearing) is used as (x, y)."
  },
  {
   "property": "C112",
   "status": "partial",
   "theorems": [
    "C112_partial",
    "C112_overrun_partial",
    "C112_refuted"
   ],
   "note": "Exactly the Poisson interval for counts below 100; refuted: above CDF(99) the table is read past its end."
  },
  {
   "property": "C113",
   "status": "partial",
   "theorems": [
    "C113_partial",
    "C113_ends_partial",
    "C113_6d_partial",
    "C113_6d_refuted",
    "C113_xy_refuted",
    "C113_stuck_refuted"
   ],
   "note": "Range limits hold when the draw ends, which is exactly when some draw reaches the lower limit; refuted: never ends for min >= max; Cartesian alarms can be too far; in the 6D simulator every alarm lies outside the limits (C113_6d_partial)."
  },
  {
   "property": "C114",
   "status": "partial",
   "theorems": [
    "C114_range_partial",
    "C114_partial",
    "C114_measured_partial",
    "C114_refuted"
   ],
   "note": "The recorded time is the first time in range; right when every landmark in range is detected; refuted with a missed detection."
  },
  {
   "property": "C115",
   "status": "partial",
   "theorems": [
    "C115_partial",
    "C115_prefix_partial",
    "C115_blocked_partial",
    "C115_simulated_partial",
    "C115_refuted",
    "C115_isam_refuted"
   ],
   "note": "Exact for ordered measurements at step times: delivered iff the last step has a measurement, else out of bounds; prefix property for any input; refuted: no measurement at the last step; ISAM file with a landmark at pose 0."
  },
  {
   "property": "C116",
   "status": "partial",
   "theorems": [
    "C116_xy_partial",
    "C116_rb_partial",
    "C116_refuted"
   ],
   "note": "Right for Cartesian measurements; range-bearing measurements are written unchanged iff the bearing is 0."
  },
  {
   "property": "C117",
   "status": "partial",
   "theorems": [
    "C117_partial",
    "C117_ends_partial",
    "C117_reckoning",
    "C117_stuck_partial",
    "C117_refuted",
    "C117_zero_refuted"
   ],
   "note": "All parts hold when the generation ends; it ends when large enough draws keep coming; refuted: min_dx >= max_dx never ends, no segments divide by zero."
  },
  {
   "property": "C118",
   "status": "partial",
   "theorems": [
    "C118_logged",
    "C118_refuted"
   ],
   "note": "The heaviest particle is logged (C118_logged); the analysis agrees when the printed weights have the same first maximum (C119_partial); refuted by weights equal to six decimals."
  },
  {
   "property": "C119",
   "status": "partial",
   "theorems": [
    "C119_partial",
    "C119_blocked_partial",
    "C119_refuted"
   ],
   "note": "Exact for logs with distinct times equal to the ground-truth times and positive printed weights; refuted: run of RBPHDSLAM_2D logs time 0 twice; a foreign time blocks all later rows."
  },
  {
   "property": "C120",
   "status": "partial",
   "theorems": [
    "C120_partial",
    "C120_average_partial",
    "C120_best_partial",
    "C120_refuted",
    "C120_average_refuted"
   ],
   "note": "Holds for headings in [-pi, pi] and positive total weight; refuted outside."
  },
  {
   "property": "C121",
   "status": "partial",
   "theorems": [
    "C121_partial",
    "C121_refuted"
   ],
   "note": "Exact when every landmark comes into range; refuted: landmarks never in range count as observed from the start."
  },
  {
   "property": "C122",
   "status": "proved",
   "theorems": [
    "C122_measured",
    "C122_back",
    "C122_there"
   ],
   "note": "For all poses (headings of any size), trees and diameters; exact real arithmetic."
  },
  {
   "property": "C123",
   "status": "partial",
   "theorems": [
    "C123_partial",
    "C123_inverse_partial",
    "C123_refuted",
    "C123_pose_refuted",
    "C123_jacobian_refuted"
   ],
   "note": "Position block and diameter variance as documented; refuted: correlation of position and diameter dropped, pose uncertainty ignored, pose Jacobian not written."
  },
  {
   "property": "C124",
   "status": "partial",
   "theorems": [
    "C124_partial",
    "C124_refuted"
   ],
   "note": "Holds for the single position; refuted: probabilityOfDetection takes the maximum over neighbours and measure always reports true."
  },
  {
   "property": "C125",
   "status": "partial",
   "theorems": [
    "C125_partial",
    "C125_beams_partial",
    "C125_complete_partial",
    "C125_refuted"
   ],
   "note": "Table entry exact for 720-beam scans and every counted beam meets the tree; refuted: the last beam within the half angle is not counted."
  },
  {
   "property": "C126",
   "status": "partial",
   "theorems": [
    "C126_partial",
    "C126_refuted"
   ],
   "note": "In bounds when the whole tree is between bearing 0 and pi; refuted for a tree near the limit."
  },
  {
   "property": "C127",
   "status": "partial",
   "theorems": [
    "C127_partial",
    "C127_ends_partial",
    "C127_refuted",
    "C127_side_refuted"
   ],
   "note": "Maximum and flag exact, termination for positive diameters; refuted: no end for diameters <= 0, neighbours not beside the tree."
  },
  {
   "property": "C128",
   "status": "partial",
   "theorems": [
    "C128_partial",
    "C128_refuted",
    "C128_no_echo_refuted",
    "C128_empty_refuted"
   ],
   "note": "Exact for 720 beams; refuted for shorter scans, without any echo (infinite) and for an empty scan (read out of bounds)."
  },
  {
   "property": "C129",
   "status": "proved",
   "theorems": [
    "C129_count",
    "C129_metric"
   ],
   "note": "For all 256-bit descriptors."
  },
  {
   "property": "C130",
   "status": "partial",
   "theorems": [
    "C130_order_partial",
    "C130_refuted"
   ],
   "note": "Order, symmetry and positivity hold; refuted: both totals are above one (and equal)."
  },
  {
   "property": "C131",
   "status": "proved",
   "theorems": [
    "C131_channel",
    "C131_probability",
    "C131_weights"
   ],
   "note": "Exact powers, no rounding; the weights for any number of landmarks."
  },
  {
   "property": "C132",
   "status": "partial",
   "theorems": [
    "C132_random_partial",
    "C132_sample_partial",
    "C132_refuted",
    "C132_sample_refuted",
    "C132_rate_refuted"
   ],
   "note": "Every bit located in the draws; refuted: eight bits are never set or flipped, and the flip rate is 1/8 instead of 1/2.1."
  },
  {
   "property": "C133",
   "status": "partial",
   "theorems": [
    "C133_round_partial",
    "C133_likelihood_partial",
    "C133_refuted"
   ],
   "note": "Descriptors handed on and likelihoods agree; refuted: the clutter intensity is not normalised over descriptors."
  },
  {
   "property": "C134",
   "status": "proved",
   "theorems": [
    "C134_acts",
    "C134_heading",
    "C134_assoc",
    "C134_time",
    "C134_base"
   ],
   "note": "Exact real arithmetic."
  },
  {
   "property": "C135",
   "status": "proved",
   "theorems": [
    "C135_distance",
    "C135_onto",
    "C135_variance",
    "C135_trace_det",
    "C135_overloads"
   ],
   "note": "Exact real arithmetic."
  },
  {
   "property": "C136",
   "status": "partial",
   "theorems": [
    "C136_partial",
    "C136_refuted"
   ],
   "note": "Holds unless a target is given without a source; refuted there: null pointer read."
  },
  {
   "property": "C137",
   "status": "partial",
   "theorems": [
    "C137_refuted",
    "C137_partial"
   ],
   "note": "Right for certain factors only; refuted: the covariance of a product is always zero."
  },
  {
   "property": "C138",
   "status": "partial",
   "theorems": [
    "C138_partial",
    "C138_again_partial",
    "C138_refuted",
    "C138_threads_refuted"
   ],
   "note": "Holds for the first initialisation under all interleavings; refuted for the second one and for threads beyond the number at initialisation."
  },
  {
   "property": "C139",
   "status": "proved",
   "theorems": [
    "C139_steps",
    "C139_total",
    "C139_defined"
   ],
   "note": "the drivers' loop; setTime as in TimeStampModel; the filter itself observes the calls"
  },
  {
   "property": "C140",
   "status": "proved",
   "theorems": [
    "C140_held"
   ],
   "note": ""
  },
  {
   "property": "C141",
   "status": "proved",
   "theorems": [
    "C141_births"
   ],
   "note": ""
  },
  {
   "property": "C142",
   "status": "partial",
   "theorems": [
    "C142_partial",
    "C142_starved_partial",
    "C142_refuted",
    "C142_scan_refuted"
   ],
   "note": "proved for ordered measurements that all belong to scan messages; false otherwise (a stray measurement starves all later updates), and the time of a scan is never compared; witnesses"
  },
  {
   "property": "C143",
   "status": "partial",
   "theorems": [
    "C143_partial",
    "C143_broken_partial",
    "C143_negative_partial",
    "C143_refuted",
    "C143_line_refuted"
   ],
   "note": "proved for complete files; a truncated last scan is completed from the scan before, an empty message line reads uninitialised memory; witnesses"
  },
  {
   "property": "C144",
   "status": "partial",
   "theorems": [
    "C144_partial",
    "C144_count_partial",
    "C144_zero_partial",
    "C144_refuted",
    "C144_side_refuted"
   ],
   "note": "number and ranges right; bearings are spread from 0 to the upper limit instead of between the limits (exact when the lower limit is 0); witnesses"
  },
  {
   "property": "C145",
   "status": "partial",
   "theorems": [
    "C145_partial",
    "C145_double_partial",
    "C145_ignored_partial",
    "C145_always_partial",
    "C145_refuted"
   ],
   "note": "numbers without a point are read exactly; a number with a point read with an int default is ignored, as the shipped effNParticle 25.0: resampling is then never skipped; witness"
  },
  {
   "property": "C146",
   "status": "proved",
   "theorems": [
    "C146_logged",
    "C146_probability"
   ],
   "note": ""
  },
  {
   "property": "C147",
   "status": "partial",
   "theorems": [
    "C147_partial",
    "C147_other_partial",
    "C147_refuted"
   ],
   "note": "proved for the PHD filter and FastSLAM; LMB and CB-MeMBer do not keep trajectories; witness"
  },
  {
   "property": "C148",
   "status": "proved",
   "theorems": [
    "C148_reckoned"
   ],
   "note": ""
  },
  {
   "property": "C149",
   "status": "proved",
   "theorems": [
    "C149_range",
    "C149_turns",
    "C149_exact"
   ],
   "note": ""
  },
  {
   "property": "C150",
   "status": "proved",
   "theorems": [
    "C150_zero",
    "C150_models"
   ],
   "note": ""
  },
  {
   "property": "C151",
   "status": "proved",
   "theorems": [
    "C151_plane",
    "C151_line"
   ],
   "note": ""
  },
  {
   "property": "C152",
   "status": "partial",
   "theorems": [
    "C152_partial",
    "C152_refuted"
   ],
   "note": "false unless p_infl*dt^2 equals z_infl: the objective uses the configured variances, not the inflated ones"
  },
  {
   "property": "C153",
   "status": "partial",
   "theorems": [
    "C153_line_partial",
    "C153_plane_partial",
    "C153_map_partial",
    "C153_refuted"
   ],
   "note": "false on the line if the landmark with the greatest number is never seen; proved in the plane for the associations of the simulation"
  },
  {
   "property": "C154",
   "status": "partial",
   "theorems": [
    "C154_line_partial",
    "C154_refuted"
   ],
   "note": "proved on the line; in the plane the element behind the end is read at every step"
  },
  {
   "property": "C155",
   "status": "partial",
   "theorems": [
    "C155_orb_partial",
    "C155_partial",
    "C155_refuted"
   ],
   "note": "proved with descriptors; otherwise the landmark row lacks an argument"
  },
  {
   "property": "C156",
   "status": "partial",
   "theorems": [
    "C156_partial",
    "C156_orb_partial",
    "C156_none_partial",
    "C156_orb_refuted",
    "C156_refuted"
   ],
   "note": "false for more landmarks than steps; with descriptors zero landmarks divide by zero"
  },
  {
   "property": "C157",
   "status": "proved",
   "theorems": [
    "C157"
   ],
   "note": ""
  },
  {
   "property": "C158",
   "status": "partial",
   "theorems": [
    "C158_range_partial",
    "C158_refuted"
   ],
   "note": "within the limits, but never on the negative side"
  },
  {
   "property": "C159",
   "status": "partial",
   "theorems": [
    "C159_partial",
    "C159_orb_partial",
    "C159_refuted"
   ],
   "note": "proved with descriptors; otherwise one move less"
  },
  {
   "property": "C160",
   "status": "partial",
   "theorems": [
    "C160_partial",
    "C160_orb_partial",
    "C160_refuted"
   ],
   "note": "false: the likelihood is that of the solution before the move; the exact rows are proved"
  },
  {
   "property": "C161",
   "status": "partial",
   "theorems": [
    "C161_partial",
    "C161_plane_partial",
    "C161_refuted"
   ],
   "note": "proved component-wise, so on the line; in the plane only for heading zero or no translation"
  },
  {
   "property": "C162",
   "status": "partial",
   "theorems": [
    "C162_partial",
    "C162_refuted"
   ],
   "note": "only if the four quaternion variances are equal"
  },
  {
   "property": "C163",
   "status": "proved",
   "theorems": [
    "C163"
   ],
   "note": ""
  },
  {
   "property": "C164",
   "status": "partial",
   "theorems": [
    "C164_partial",
    "C164_origins",
    "C164_values",
    "C164_refuted"
   ],
   "note": "true for constructed objects after any assignments; copies read mean and variance of the amplitude uninitialised (C164_refuted)"
  },
  {
   "property": "C165",
   "status": "partial",
   "theorems": [
    "C165_partial",
    "C165_refuted"
   ],
   "note": "exactly if the two amplitudes have a mean below 11.5554; a return of 30 counts less than one of -5 (C165_refuted)"
  },
  {
   "property": "C166",
   "status": "partial",
   "theorems": [
    "C166_detection_partial",
    "C166_ends",
    "C166_alarm",
    "C166_refuted"
   ],
   "note": "false alarms are exact; detections are truncated at zero while the likelihood is not (C166_refuted)"
  },
  {
   "property": "C167",
   "status": "partial",
   "theorems": [
    "C167_partial",
    "C167_defined",
    "C167_refuted"
   ],
   "note": "equal files exactly for equal times, ranges and bearings; amplitudes are not written (C167_refuted)"
  },
  {
   "property": "C168",
   "status": "partial",
   "theorems": [
    "C168_partial",
    "C168_refuted"
   ],
   "note": "success exactly in range, value and covariance characterised for all flags; noise leaves the limits (C168_refuted)"
  },
  {
   "property": "C169",
   "status": "partial",
   "theorems": [
    "C169_partial",
    "C169_refuted",
    "C169_bearing_refuted"
   ],
   "note": "exactly if in addition the noisy range is within the limits; a landmark in range with Pd = 1 is missed (C169_refuted), stored bearings exceed half a turn (C169_bearing_refuted)"
  },
  {
   "property": "C170",
   "status": "partial",
   "theorems": [
    "C170_bounds",
    "C170_partial",
    "C170_maintained",
    "C170_tracks",
    "C170_refuted"
   ],
   "note": "C170_bounds: getGMSize/getLandmark refuse exactly the indices out of range. C170_partial: in a map without empty slots getGMSize counts the landmarks and reading 0..size-1 gives the whole map with weights. C170_maintained: merge followed by prune with a positive threshold leaves such a map. C170_tracks: getTrack copies exactly the track and leaves all tracks as they are. C170_refuted: with pruning threshold 0 a slot emptied by merge survives in front of a landmark of weight zero, and getLandmark of an index below getGMSize dereferences a null pointer."
  },
  {
   "property": "C171",
   "status": "partial",
   "theorems": [
    "C171_exact",
    "C171_partial",
    "C171_refuted"
   ],
   "note": "C171_exact: the function returns true iff each of the first n_ slots is empty or holds numbers only with entries of the covariance adding up to more than zero. C171_partial: no false alarm for sound maps. C171_refuted: an indefinite covariance passes, and so does a NaN behind an empty slot."
  },
  {
   "property": "C172",
   "status": "partial",
   "theorems": [
    "C172_poses",
    "C172_partial",
    "C172_refuted"
   ],
   "note": "C172_poses: status 0 exactly for well-formed pose files, and then every row is written with time and number. C172_partial: the landmark part always ends; status 0 exactly if the maps up to the first line that is not a map head are well formed, and then their rows are written (S_yx is dropped). C172_refuted: a map with a row more than announced ends the conversion with status 0 and three of four rows lost."
  },
  {
   "property": "C173",
   "status": "partial",
   "theorems": [
    "C173_once",
    "C173_partial",
    "C173_refuted_exact",
    "C173_refuted"
   ],
   "note": "C173_once: one run keeps the files found as .bak whatever its status. C173_partial: a run ends if both files exist. C173_refuted_exact: after a successful run two more runs leave all four files empty. C173_refuted: the second run overwrites the backup and leaves empty files."
  },
  {
   "property": "C174",
   "status": "proved",
   "theorems": [
    "C174",
    "C174_time"
   ],
   "note": "C174: set and get of position and rotation, all dimensions. C174_time: the versions with a time."
  },
  {
   "property": "C175",
   "status": "partial",
   "theorems": [
    "C175_recursion",
    "C175_exact",
    "C175_dense_partial",
    "C175_block_partial",
    "C175_partial",
    "C175_single_partial",
    "C175_refuted",
    "C175_dense_refuted"
   ],
   "note": "The incremental inverse, innovation and distance are right for any blocks and any length, and the code's distance is characterised exactly; with a certain pose (any length) or one association it is the joint Mahalanobis distance. Refuted otherwise: the measurement noise is added beside the diagonal, the block-diagonal case uses the new landmark's Jacobian for the old one, and the dense case leaves out the correlation of robot and landmark."
  },
  {
   "property": "C176",
   "status": "partial",
   "theorems": [
    "C176_exact_partial",
    "C176_partial",
    "C176_refuted",
    "C176_missed_refuted",
    "C176_empty_refuted"
   ],
   "note": "For every scan of a non-empty map the function returns and the value is characterised exactly (sum with detection probability 0.9 for all landmarks and 0.9 instead of 0.1 for missing a landmark without possible measurement); it is the claimed one if the sensor model's probabilities are 0.9 and every landmark has a possible measurement. Refuted otherwise: the probabilities are overwritten with 0.9, a landmark without measurement contributes Pd instead of 1 - Pd, and an empty map is not divided by the clutter integral."
  },
  {
   "property": "C177",
   "status": "partial",
   "theorems": [
    "C177_partial",
    "C177_refuted"
   ],
   "note": "The gradients are exactly the means of the table entry times the derivative, for all scans with a positive sum and components of at most 8 landmarks and measurements or at most 200 hypotheses. Refuted: because of the extra factor they are the gradient neither of the logarithm nor of the value."
  },
  {
   "property": "C178",
   "status": "partial",
   "theorems": [
    "C178_file_partial",
    "C178_singular_partial",
    "C178_settings_partial",
    "C178_refuted",
    "C178_last_refuted",
    "C178_blank_refuted"
   ],
   "note": "Covariances and files are modelled exactly: readISAMFile leaves the diagonal of the inverse of the information of the last line of each kind. False of the program: readConfigFile is called again after the files and overwrites the variances (C178_settings_partial for all files, C178_refuted); only the last line counts (C178_last_refuted); a blank line reads an uninitialised array (C178_blank_refuted)."
  },
  {
   "property": "C179",
   "status": "partial",
   "theorems": [
    "C179_held_partial",
    "C179_rest_partial",
    "C179_completes_partial",
    "C179_phd_partial",
    "C179_time_partial",
    "C179_refuted",
    "C179_bounds_refuted",
    "C179_time_refuted",
    "C179_split_refuted"
   ],
   "note": "Proved: the first nParticles_ particles are held at pose hold(k) of the ground truth, maps and weights stay, exact condition under which a run completes, the PHD class never uses the ground truth, and the time is right for consecutive ISAM files. False: the LMB class uses ground truth in its first five steps (C179_refuted), reads past it for short runs (C179_bounds_refuted), is one step ahead in simulations (C179_time_refuted), and split particles are not held (C179_split_refuted)."
  },
  {
   "property": "C180",
   "status": "partial",
   "theorems": [
    "C180_truth_partial",
    "C180_times_partial",
    "C180_order_refuted",
    "C180_refuted",
    "C180_shift_refuted"
   ],
   "note": "Exact characterisation of readISAMGroundTruth for complete lines. False in general: a sighting before the motion to its pose reads out of bounds (C180_order_refuted), repeated sightings are listed repeatedly (C180_refuted), accepted non-consecutive constraints shift pose numbers (C180_shift_refuted)."
  },
  {
   "property": "C181",
   "status": "partial",
   "theorems": [
    "C181_lmb_partial",
    "C181_refuted"
   ],
   "note": "False of RBLMBSLAM_2D: the covariance is computed and not set, so every sample is noise-free (C181_lmb_partial for all settings, C181_refuted); RBPHDSLAM_2D sets it."
  },
  {
   "property": "C182",
   "status": "partial",
   "theorems": [
    "C182_points_partial",
    "C182_odd_partial",
    "C182_open_partial",
    "C182_refuted"
   ],
   "note": "True if anything follows the last number (C182_points_partial); otherwise the last point is always lost (C182_open_partial, C182_refuted)."
  },
  {
   "property": "C183",
   "status": "partial",
   "theorems": [
    "C183_first_partial",
    "C183_exact_partial",
    "C183_refuted"
   ],
   "note": "False of the code from the second resampling on: getParentId() is the identifier of the copied particle, which is not its slot after a resampling (C183_refuted). Proved for the first resampling of every run, and the exact content of every slot in terms of parent identifiers."
  },
  {
   "property": "C184",
   "status": "partial",
   "theorems": [
    "C184_counters_partial",
    "C184_decision_partial",
    "C184_refuted",
    "C184_otherwise_partial"
   ],
   "note": "False of the code for negative configured numbers, which the comparison converts to large unsigned numbers (C184_refuted). Proved for all non-negative ones, with the counters characterised by the history."
  },
  {
   "property": "C185",
   "status": "proved",
   "theorems": [
    "C185_bounds",
    "C185_map_updates"
   ],
   "note": "Map updates are any function that keeps particles and identifiers and makes at most maxNDataAssocHypotheses_ of one (predicate faithful)."
  },
  {
   "property": "C186",
   "status": "proved",
   "theorems": [
    "C186_defined"
   ],
   "note": "Same assumption on map updates."
  },
  {
   "property": "C187",
   "status": "proved",
   "theorems": [
    "C187_trajectories",
    "C187_length"
   ],
   "note": "Map updates are any function that gives every particle pose and trajectory of a particle there was (predicate keeps_paths)."
  },
  {
   "property": "C188",
   "status": "proved",
   "theorems": [
    "C188_history"
   ],
   "note": "For all runs (induction over the calls); map update, births, motion and static step of a particle are arbitrary functions of slot, pose and map."
  },
  {
   "property": "C189",
   "status": "proved",
   "theorems": [
    "C189_weights"
   ],
   "note": "For all runs and all positive factors; exact rationals. That the factors of the filters are those the theory asks for is C104-C109."
  },
  {
   "property": "C190",
   "status": "partial",
   "theorems": [
    "C190_counters_partial",
    "C190_decision_partial",
    "C190_refuted"
   ],
   "note": "False for negative settings, which are converted to unsigned (C190_refuted: with -1 the filter never resamples). C190_counters_partial and C190_decision_partial: counters for all runs; decision for settings from 0 to 2^32 - 1 and weights that are not all zero."
  },
  {
   "property": "C191",
   "status": "partial",
   "theorems": [
    "C191_defined_partial",
    "C191_refuted"
   ],
   "note": "False if setEffectiveParticleCountThreshold is not called (C191_refuted). C191_defined_partial: all sequences of calls after it, weights non-negative or NaN; also gives the number of particles."
  },
  {
   "property": "C192",
   "status": "partial",
   "theorems": [
    "C192_defined_partial",
    "C192_refuted",
    "C192_certain_refuted"
   ],
   "note": "Pruning in place, which may copy a track onto itself, is left to C200. Proved for every run with pd < 1 and positive clutter in which no update without measurements comes between an update and the next predict. Both conditions are needed: without the second births are read out of range (C192_refuted), with pd = 1 there is a division by zero (C192_certain_refuted). Numbers are exact rationals, merging, Kalman correction, components and Murty are functions with a contract."
  },
  {
   "property": "C193",
   "status": "partial",
   "theorems": [
    "C193_sum_partial",
    "C193_ghost_partial",
    "C193_refuted"
   ],
   "note": "False for the default gaussianPruningThreshold_ of 0.2: prune does not renormalise and can remove every Gaussian of a track (C193_refuted); the empty track stays unchanged for the rest of any run (C193_ghost_partial). True if the threshold is at most 0 (C193_sum_partial)."
  },
  {
   "property": "C194",
   "status": "proved",
   "theorems": [
    "C194_life",
    "C194_refines"
   ],
   "note": "C194_life over all calm runs (conditions as in C192_defined_partial); C194_refines without conditions. LMB filter only."
  },
  {
   "property": "C195",
   "status": "partial",
   "theorems": [
    "C195_run_partial",
    "C195_refines",
    "C195_count_refuted",
    "C195_calm_refuted",
    "C195_certain_refuted"
   ],
   "note": "Proved for every run with pd < 1, positive clutter, one measurement per birth (birthGaussianMeasurementCountThreshold_ = 1) and no update without measurements between an update and the next predict that looks for births. All three conditions are needed: C195_count_refuted (iterator past the end), C195_certain_refuted (weights become NaN), C195_calm_refuted (read out of range). C195_refines has no conditions."
  },
  {
   "property": "C196",
   "status": "proved",
   "theorems": [
    "C196_landmarks"
   ],
   "note": "Proved for every defined run, whatever the thresholds for births, and any sensor with probabilities of detection in [0,1] and non-negative likelihoods and clutter; the birth weight must not be negative. Contracts of sorting and merging (the mass of the map is kept) are hypotheses."
  },
  {
   "property": "C197",
   "status": "proved",
   "theorems": [
    "C197_positive",
    "C197_alive"
   ],
   "note": "C197_positive for any number of hypotheses, kbest being any function that returns best assignments; C197_alive as a consequence."
  },
  {
   "property": "C198",
   "status": "partial",
   "theorems": [
    "C198_run_partial",
    "C198_squeeze_refines",
    "C198_drop_refines",
    "C198_refuted",
    "C198_calm_refuted"
   ],
   "note": "false in the code: with the default thresholds a track that is missed three times is pruned by copying the last track of the map onto itself (C198_refuted), and predict after an update without measurements reads out of range (C198_calm_refuted); C198_run_partial shows these are the only ways, C198_squeeze_refines and C198_drop_refines relate the moves to memory"
  },
  {
   "property": "C199",
   "status": "partial",
   "theorems": [
    "C199_keeps_partial",
    "C199_refuted"
   ],
   "note": "false in the code: with measurements 8, 1, 9 of which 1 fits, no track for 1 remains and it is not left for a birth (C199_refuted); proved when the fitting measurements come first (C199_keeps_partial)"
  },
  {
   "property": "C200",
   "status": "partial",
   "theorems": [
    "C200_drop_partial",
    "C200_update_partial",
    "C200_run_partial",
    "C200_refuted"
   ],
   "note": "false in the code: with the default thresholds a track that is missed three times makes pruneTracks copy the last track onto itself (C200_refuted); C200_drop_partial and C200_update_partial say exactly when, C200_run_partial that otherwise runs are defined"
  },
  {
   "property": "C201",
   "status": "proved",
   "theorems": [
    "C201_life"
   ],
   "note": "C201_life, for sensors that do not detect with certainty and runs that are defined (C198 says which)"
  },
  {
   "property": "C202",
   "status": "partial",
   "theorems": [
    "C202_member_partial",
    "C202_member_run_partial",
    "C202_lmb_refuted",
    "C202_lmb_unset_refuted",
    "C202_lmb_partial",
    "C202_lmb_run_partial",
    "C202_phd_refuted",
    "C202_phd_unset_refuted",
    "C202_phd_run_partial",
    "C202_phd_partial"
   ],
   "note": "False of the PHD filter (useClusterProcess_) and of the LMB filter (expectedBirths_): as constructed, no run of them that contains a measurement is defined (C202_phd_refuted, C202_lmb_refuted). True of the CB-MeMBer filter for all calls (C202_member_partial); with these members set all three run with the defaults (C202_lmb_partial, C202_phd_partial) under the conditions of C195, C198 and C200."
  },
  {
   "property": "C203",
   "status": "proved",
   "theorems": [
    "C203_origin",
    "C203_keeps"
   ],
   "note": "C203_origin and C203_keeps, for every defined run (C195 says which are); only the contract of the sort is a hypothesis"
  },
  {
   "property": "C204",
   "status": "proved",
   "theorems": [
    "C204_lmb",
    "C204_member",
    "C204_keeps"
   ],
   "note": "C204_lmb, C204_member and C204_keeps, for every defined run (C198 and C200 say which are), with the order in which the code moves tracks"
  },
  {
   "property": "C205",
   "status": "partial",
   "theorems": [
    "C205_lmb_partial",
    "C205_member_partial",
    "C205_calm_partial",
    "C205_refuted"
   ],
   "note": "True of the LMB filter in every defined run (C205_lmb_partial). False of the CB-MeMBer filter: births stay with the slot when maps are resampled, so a measurement can make a track and a birth in the same particle (C205_refuted, two measurements and three tracks); proved there are at most twice as many tracks as measurements in every run (C205_member_partial), and no more than measurements if no update resamples (C205_calm_partial)."
  }
 ]
}