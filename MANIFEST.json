{
 "claims": [
  {
   "property": "C01",
   "status": "proved",
   "theorems": [
    "C01_range_real",
    "C01_range_ieee",
    "C01_range_from"
   ],
   "note": ""
  },
  {
   "property": "C02",
   "status": "proved",
   "theorems": [
    "C02_clamp_real",
    "C02_clamp_ieee",
    "C02_clamp_nan",
    "C02_clamp_inverted_refuted"
   ],
   "note": "the negative half of the statement (inverted ranges) is the _refuted witness"
  },
  {
   "property": "C03",
   "status": "proved",
   "theorems": [
    "C03_joint_set_position",
    "C03_joint_velocity",
    "C03_joint_fresh"
   ],
   "note": ""
  },
  {
   "property": "C04",
   "status": "proved",
   "theorems": [
    "C04_joint_set_clamped",
    "C04_joint_set_clamped_inside",
    "C04_joint_set_unchecked"
   ],
   "note": ""
  },
  {
   "property": "C05",
   "status": "proved",
   "theorems": [
    "C05_all_joints_stay_inside",
    "C05_joint_stays_inside",
    "C05_fresh_joint_refuted"
   ],
   "note": "every client program over the whole node/chain/funcs API; solver calls included for scalars without NaN; the refuted theorem is the last sentence"
  },
  {
   "property": "C06",
   "status": "proved",
   "theorems": [
    "C06_mimic_children_follow",
    "C06_succeeds_iff"
   ],
   "note": ""
  },
  {
   "property": "C07",
   "status": "proved",
   "theorems": [
    "C07_mimic_child_ignores"
   ],
   "note": ""
  },
  {
   "property": "C08",
   "status": "proved",
   "theorems": [
    "C08_failing_mimic_update"
   ],
   "note": "non-atomicity shown by the example C08_case_not_atomic"
  },
  {
   "property": "C09",
   "status": "proved",
   "theorems": [
    "C09_clamped_no_propagation",
    "C09_unchecked_no_propagation"
   ],
   "note": ""
  },
  {
   "property": "C10",
   "status": "proved",
   "theorems": [
    "C10_forest_invariant",
    "C10_attach_detach",
    "C10_connect",
    "C10_reparent_refuted"
   ],
   "note": "the refuted theorem is the last sentence of the statement"
  },
  {
   "property": "C11",
   "status": "proved",
   "theorems": [
    "C11_ancestors",
    "C11_ancestors_only",
    "C11_acyclic_ends",
    "C11_cycle_diverges"
   ],
   "note": ""
  },
  {
   "property": "C12",
   "status": "proved",
   "theorems": [
    "C12_descendants",
    "C12_descendants_only",
    "C12_forest_tree",
    "C12_cycle_diverges"
   ],
   "note": ""
  },
  {
   "property": "C13",
   "status": "proved",
   "theorems": [
    "C13_from_nodes",
    "C13_from_root",
    "C13_from_end",
    "C13_from_end_to_root",
    "C13_iter_joints"
   ],
   "note": "every constructor returns and its chain is chain_of the documented list; iter_joints enumerates the movable nodes"
  },
  {
   "property": "C14",
   "status": "proved",
   "theorems": [
    "C14_joint_positions",
    "C14_types_immutable",
    "C14_dof"
   ],
   "note": "any client program over the whole API"
  },
  {
   "property": "C15",
   "status": "proved",
   "theorems": [
    "C15_set_then_get",
    "C15_size_mismatch"
   ],
   "note": "for every scalar arithmetic"
  },
  {
   "property": "C16",
   "status": "proved",
   "theorems": [
    "C16_failure_applies_prefix"
   ],
   "note": "for every failing index and scalar arithmetic"
  },
  {
   "property": "C17",
   "status": "proved",
   "theorems": [
    "C17_clamped",
    "C17_unchecked"
   ],
   "note": "slices of any length, both setters"
  },
  {
   "property": "C18",
   "status": "proved",
   "theorems": [
    "C18_update_transforms",
    "C18_from_end_qualifies",
    "C18_from_root_qualifies",
    "C18_world_unique",
    "C18_client"
   ],
   "note": "for every scalar arithmetic, no algebraic law used"
  },
  {
   "property": "C19",
   "status": "proved",
   "theorems": [
    "C19_end_transform",
    "C19_cut_chain",
    "C19_cut_chain_panics"
   ],
   "note": ""
  },
  {
   "property": "C20",
   "status": "proved",
   "theorems": [
    "C20_set_position_clears_own",
    "C20_set_unchecked_clears_own",
    "C20_set_clamped_clears_own",
    "C20_set_origin_clears_own",
    "C20_update_makes_fresh",
    "C20_fresh_is_stable",
    "C20_descendants_fresh_refuted"
   ],
   "note": "histories are sequences of position/origin/link setters off the path and of update_transforms on closed chains"
  },
  {
   "property": "C21",
   "status": "proved",
   "theorems": [
    "C21_rigid",
    "C21_fixed",
    "C21_linear",
    "C21_linear_distance",
    "C21_rotational",
    "C21_rotation_fixes_axis",
    "C21_rotation_additive",
    "C21_rotation_periodic",
    "C21_rotation_plane",
    "C21_rotational_periodic"
   ],
   "note": "over the exact reals"
  },
  {
   "property": "C22",
   "status": "proved",
   "theorems": [
    "C22_update_transforms",
    "C22_any_chain",
    "C22_end_transform",
    "C22_rotation_matrix"
   ],
   "note": "over the exact reals; C22_any_chain needs no assumption on the shape of the chain"
  },
  {
   "property": "C23",
   "status": "proved",
   "theorems": [
    "C23_clone_is_fresh",
    "C23_using_the_clone",
    "C23_using_the_original"
   ],
   "note": "later histories: any sequential client program over the modelled API; 'inside the clone' means made by the same call (for a tree these are exactly the clone's nodes, C24)"
  },
  {
   "property": "C24",
   "status": "proved",
   "theorems": [
    "C24_isomorphic_copy",
    "C24_unbranched_positions",
    "C24_twice",
    "C24_branching_positions_refuted"
   ],
   "note": "nodes with a stale (dead) mimic parent lose their Mimic in the copy; mimic children are compared as sets"
  },
  {
   "property": "C25",
   "status": "proved",
   "theorems": [
    "C25_empty",
    "C25_panics",
    "C25_returns",
    "C25_cut_chain_panics"
   ],
   "note": "'returns' means: with every fuel above some bound"
  },
  {
   "property": "C26",
   "status": "proved",
   "theorems": [
    "C26_tree",
    "C26_any",
    "C26_empty"
   ],
   "note": "with overflow checks off the empty chain is accepted (C26_empty with ovf = false)"
  },
  {
   "property": "C27",
   "status": "proved",
   "theorems": [
    "C27_find",
    "C27_solver_lookup"
   ],
   "note": "chain lookup and the solver's lookup of ignored joints"
  },
  {
   "property": "C28",
   "status": "proved",
   "theorems": [
    "C28_update_link_transforms",
    "C28_own_frame",
    "C28_client"
   ],
   "note": ""
  },
  {
   "property": "C29",
   "status": "proved",
   "theorems": [
    "C29_center_of_mass",
    "C29_mean",
    "C29_half_space",
    "C29_box",
    "C29_root_moves"
   ],
   "note": "the first for any scalars, the others over the exact reals"
  },
  {
   "property": "C30",
   "status": "proved",
   "theorems": [
    "C30_jacobian_is_derivative",
    "C30_cut_chain_refuted"
   ],
   "note": "over the exact reals; the refuted theorem is the last sentence of the statement"
  },
  {
   "property": "C31",
   "status": "proved",
   "theorems": [
    "C31_ok_means_on_target",
    "C31_any_start",
    "C31_solve",
    "C31_out_of_limits_start_refuted"
   ],
   "note": "every linear algebra oracle, every scalar with IEEE-like comparisons; the refuted theorem is the last sentence"
  },
  {
   "property": "C32",
   "status": "proved",
   "theorems": [
    "C32_err_restores",
    "C32_mimic_child_refuted",
    "C32_out_of_limits_start_refuted"
   ],
   "note": "every scalar and linear algebra; the refuted theorems are the last sentence"
  },
  {
   "property": "C33",
   "status": "proved",
   "theorems": [
    "C33_solver_frame"
   ],
   "note": "all outcomes of the call, including panics"
  },
  {
   "property": "C34",
   "status": "proved",
   "theorems": [
    "C34_ignored_real",
    "C34_ignored_float",
    "C34_one_iteration",
    "C34_square_branch",
    "C34_equal_dof_refuted"
   ],
   "note": "exact over the reals; for IEEE floats numerically equal (the sign of a zero may change); the refuted theorem is the last sentence"
  },
  {
   "property": "C35",
   "status": "proved",
   "theorems": [
    "C35_precondition",
    "C35_unknown_name",
    "C35_before_moving",
    "C35_too_many_names_panics",
    "C35_too_many_names_never_ok",
    "C35_no_tries_panics"
   ],
   "note": ""
  },
  {
   "property": "C36",
   "status": "proved",
   "theorems": [
    "C36_masked_difference",
    "C36_spread_again",
    "C36_rows_kept",
    "C36_jacobian_shape"
   ],
   "note": ""
  },
  {
   "property": "C37",
   "status": "proved",
   "theorems": [
    "C37_zero_iff_same_pose",
    "C37_pose_diff",
    "C37_atan2"
   ],
   "note": "over the exact reals"
  },
  {
   "property": "C38",
   "status": "proved",
   "theorems": [
    "C38_nullspace"
   ],
   "note": ""
  },
  {
   "property": "C39",
   "status": "proved",
   "theorems": [
    "C39_no_self_deadlock",
    "C39_update_velocities_never_returns",
    "C39_update_velocities_deadlocks",
    "C39_fixed_at_rest",
    "C39_display_cycle_deadlocks"
   ],
   "note": "every client program over the API; the two exceptions characterised"
  },
  {
   "property": "C40",
   "status": "proved",
   "theorems": [
    "C40_no_deadlock",
    "C40_progress",
    "C40_set_mimic_parent_race_refuted",
    "C40_display_race_refuted"
   ],
   "note": "any number of client programs, every reachable configuration; the two races are concrete reachable deadlocks"
  },
  {
   "property": "C41",
   "status": "proved",
   "theorems": [
    "C41_threads"
   ],
   "note": "any number of client programs, every reachable configuration"
  },
  {
   "property": "C42",
   "status": "proved",
   "theorems": [
    "C42_update_transforms_race",
    "C42_jacobian_race",
    "C42_poison_is_permanent",
    "C42_poisoned_calls_panic"
   ],
   "note": ""
  },
  {
   "property": "C43",
   "status": "proved",
   "theorems": [
    "C43_counts",
    "C43_held_is_alive",
    "C43_chain_is_alive",
    "C43_clone",
    "C43_drop",
    "C43_calls",
    "C43_calls_end",
    "C43_collected",
    "C43_nothing_left",
    "C43_parent",
    "C43_parent_in_chain",
    "C43_drop_parent",
    "C43_orphan",
    "C43_cycle_leaks"
   ],
   "note": "one client thread; a call taking handles by value is a call on clones of them; deallocation of deeply nested nodes is not limited by stack size"
  },
  {
   "property": "C44",
   "status": "proved",
   "theorems": [
    "C44_tree",
    "C44_parents",
    "C44_cycles_are_dropped"
   ],
   "note": "joints whose parent link is not declared hang from the root; for every scalar conversion; joints_convert (no panic in Range::new) and known mimic sources are hypotheses, their failures are C45/C46"
  },
  {
   "property": "C45",
   "status": "proved",
   "theorems": [
    "C45_conversion",
    "C45_axis_real",
    "C45_origin_real",
    "C45_limits_real",
    "C45_limits_f64",
    "C45_limits_f32",
    "C45_inverted_limits_f32_refuted",
    "C45_bad_limits_panic"
   ],
   "note": "geometry over the exact reals; limits exactly for IEEE f64 robots loaded as f64 and f32"
  },
  {
   "property": "C46",
   "status": "proved",
   "theorems": [
    "C46_mimic_follows",
    "C46_succeeds_iff",
    "C46_unknown_source_panics"
   ],
   "note": "the source must not itself mimic a joint (then it ignores commands, C07)"
  },
  {
   "property": "C47",
   "status": "proved",
   "theorems": [
    "C47_links",
    "C47_load",
    "C47_inertia",
    "C47_elements"
   ],
   "note": ""
  },
  {
   "property": "C48",
   "status": "proved",
   "theorems": [
    "C48_link_to_joint",
    "C48_inverse",
    "C48_root_entry",
    "C48_root_entry_refuted"
   ],
   "note": ""
  },
  {
   "property": "C49",
   "status": "proved",
   "theorems": [
    "C49_rpy",
    "C49_axes",
    "C49_isometry"
   ],
   "note": "over the exact reals, where the f64 conversion is the identity"
  },
  {
   "property": "C50",
   "status": "proved",
   "theorems": [
    "C50_display",
    "C50_rows_are_preorder",
    "C50_display_returns",
    "C50_empty_panics",
    "C50_tags_kinds",
    "C50_tags_axes_float",
    "C50_tags_axes_real",
    "C50_tags_other"
   ],
   "note": ""
  },
  {
   "property": "C51",
   "status": "proved",
   "theorems": [
    "C51_iteration",
    "C51_converges"
   ],
   "note": "over the exact reals; exactness of the linear solver at the arm's (constant) reduced Jacobian and solvability of the system are hypotheses"
  },
  {
   "property": "C52",
   "status": "proved",
   "theorems": [
    "C52_end_to_end"
   ],
   "note": "any tree, any scalar with IEEE-like comparisons, any linear algebra"
  },
  {
   "property": "C53",
   "status": "proved",
   "theorems": [
    "C53_iteration",
    "C53_defaults"
   ],
   "note": "nalgebra's LU and SVD are arbitrary functions; for any scalars"
  },
  {
   "property": "C54",
   "status": "proved",
   "theorems": [
    "C54_null_space",
    "C54_set_clear"
   ],
   "note": "over the exact reals; nalgebra's pseudo inverse is any function satisfying the Penrose equation at this matrix"
  },
  {
   "property": "C55",
   "status": "proved",
   "theorems": [
    "C55_atomic",
    "C55_linearizable",
    "C55_joint_positions_torn_refuted",
    "C55_mimic_update_torn_refuted",
    "C55_set_parent_torn_refuted"
   ],
   "note": "the refuted theorems are the last sentence of the statement"
  },
  {
   "property": "C56",
   "status": "proved",
   "theorems": [
    "C56_guard_stable",
    "C56_other_nodes",
    "C56_guarded_node_hangs",
    "C56_own_method_hangs",
    "C56_chain_hangs",
    "C56_two_guards_deadlock_refuted"
   ],
   "note": "the refuted theorem is the last sentence of the statement"
  },
  {
   "property": "C57",
   "status": "proved",
   "theorems": [
    "C57_finalize",
    "C57_into_node",
    "C57_link",
    "C57_urdf_joint",
    "C57_inside_limits_refuted"
   ],
   "note": "the refuted theorem is the last sentence of the statement"
  },
  {
   "property": "C58",
   "status": "proved",
   "theorems": [
    "C58_reach",
    "C58_hole",
    "C58_solved_in_reach",
    "C58_out_of_reach",
    "C58_tight"
   ],
   "note": "over the exact reals; the linear algebra is arbitrary"
  },
  {
   "property": "C59",
   "status": "proved",
   "theorems": [
    "C59_base_moves_all",
    "C59_base_moves_end",
    "C59_small_moves"
   ],
   "note": "over the exact reals"
  },
  {
   "property": "C60",
   "status": "proved",
   "theorems": [
    "C60_end_transform",
    "C60_update_transforms",
    "C60_linear",
    "C60_f64",
    "C60_f32"
   ],
   "note": "the accuracy of the libm is a hypothesis; a libm meeting it is exhibited"
  },
  {
   "property": "C61",
   "status": "proved",
   "theorems": [
    "C61_panic_leaves_no_poison",
    "C61_poison_spreads"
   ],
   "note": "one thread, any client program over the modelled API on chains obtained from it"
  },
  {
   "property": "C62",
   "status": "proved",
   "theorems": [
    "C62_position",
    "C62_orientation",
    "C62_ideal_arm",
    "C62_linear",
    "C62_f64",
    "C62_f32",
    "C62_nan_target_refuted"
   ],
   "note": "the accuracy of the libm and the finiteness of target and final positions are hypotheses, the latter shown necessary for the target's rotation; the orientation half is for all three rotations constrained"
  },
  {
   "property": "C63",
   "status": "proved",
   "theorems": [
    "C63_queries",
    "C63_read_back",
    "C63_elements",
    "C63_new_elements"
   ],
   "note": ""
  },
  {
   "property": "C64",
   "status": "proved",
   "theorems": [
    "C64_end_velocity"
   ],
   "note": "over the reals; serial chains from a root"
  },
  {
   "property": "C65",
   "status": "proved",
   "theorems": [
    "C65_first_order",
    "C65_closer"
   ],
   "note": "over the reals, with exact linear algebra; serial chains from a root, movable joints strictly inside their limits; the rotation half for all three rotations constrained and less than a half turn to go"
  },
  {
   "property": "C66",
   "status": "proved",
   "theorems": [
    "C66_lu_exact",
    "C66_lu_singular",
    "C66_lu_length",
    "C66_iteration",
    "C66_exact_solver",
    "C66_closer"
   ],
   "note": "over the reals (C66_lu_length in any arithmetic); nalgebra's LU as read from its source; the empty matrix is not modelled"
  },
  {
   "property": "C67",
   "status": "proved",
   "theorems": [
    "C67_solve",
    "C67_pinv",
    "C67_bounded_step",
    "C67_exact_solver",
    "C67_closer"
   ],
   "note": "over the reals; nalgebra's decomposition is any function giving a singular value decomposition of the matrix of the iteration"
  },
  {
   "property": "C68",
   "status": "proved",
   "theorems": [
    "C68_as_alone",
    "C68_no_waiting",
    "C68_own_world",
    "C68_rest",
    "C68_mimic_link_refuted"
   ],
   "note": "calls that create nodes (Node::new, Chain::clone) are excluded: addresses are observable and depend on the order of allocations"
  },
  {
   "property": "C69",
   "status": "proved",
   "theorems": [
    "C69_no_data_race",
    "C69_touch_locked",
    "C69_handed_over",
    "C69_checks_lose_nothing",
    "C69_before_in_time"
   ],
   "note": "the allocation of a node and its publication to other threads is not among the accesses; handing handles to other threads is up to the client's own synchronisation"
  },
  {
   "property": "C70",
   "status": "proved",
   "theorems": [
    "C70_no_infinite_execution",
    "C70_all_finish",
    "C70_reached",
    "C70_no_fuel_needed",
    "C70_set_mimic_parent_refuted"
   ],
   "note": "walks over parents and children have fuel in the model; that they end on trees is C11, C12"
  },
  {
   "property": "C71",
   "status": "proved",
   "theorems": [
    "C71_newton_step",
    "C71_converges",
    "C71_from_start",
    "C71_local"
   ],
   "note": "over the reals, linear algebra as in C66 and C67; one or two constrained rotations are not covered: there the solver's error is not the logarithm of a rotation"
  },
  {
   "property": "C72",
   "status": "proved",
   "theorems": [
    "C72_columns",
    "C72_derivative",
    "C72_f64"
   ],
   "note": "sine and cosine of the libm are assumed right up to a bound; arms from a root, as in C30"
  },
  {
   "property": "C73",
   "status": "proved",
   "theorems": [
    "C73_center_of_mass",
    "C73_f64"
   ],
   "note": "sine and cosine of the libm are assumed right up to a bound; masses not negative, sum positive"
  },
  {
   "property": "C74",
   "status": "proved",
   "theorems": [
    "C74_exact",
    "C74_out_of_limit",
    "C74_solver",
    "C74_text",
    "C74_text_kind",
    "C74_text_content",
    "C74_mimic_text_refuted"
   ],
   "note": "printing of numbers and vectors is a parameter; that the computed remaining errors are numbers of the format is a hypothesis of C74_exact"
  },
  {
   "property": "C75",
   "status": "proved",
   "theorems": [
    "C75_one_memory",
    "C75_nothing_lost",
    "C75_reads_newest",
    "C75_knows",
    "C75_stale_read",
    "C75_no_stale_read",
    "C75_not_handed_over"
   ],
   "note": "the weak machine has per-thread views passed on by mutexes (release and acquire); a read cannot return a write that is made later"
  },
  {
   "property": "C76",
   "status": "proved",
   "theorems": [
    "C76_residual",
    "C76_near_singular",
    "C76_answer",
    "C76_iteration",
    "C76_step"
   ],
   "note": "nalgebra's LU as read from its source; the constants grow as 3^n; sine and cosine of the libm are assumed right up to a bound (C76_step); finiteness of the pose error is a hypothesis"
  },
  {
   "property": "C77",
   "status": "proved",
   "theorems": [
    "C77_converges",
    "C77_f64"
   ],
   "note": "positions only, no ignored joints, as many joints as constrained coordinates (LU branch); sine and cosine of the libm are assumed right up to a bound; how near the end then is to the target is C62"
  },
  {
   "property": "C78",
   "status": "proved",
   "theorems": [
    "C78_links",
    "C78_origin",
    "C78_no_nodes",
    "C78_serial",
    "C78_links_refuted"
   ],
   "note": "the links are read one after the other as the iterator is consumed; holding several LinkRefGuards at once is C56"
  },
  {
   "property": "C79",
   "status": "proved",
   "theorems": [
    "C79_exists",
    "C79_decomposes",
    "C79_same_answer",
    "C79_same_solver",
    "C79_converges"
   ],
   "note": "over the reals; the algorithm computing the decomposition is not modelled, any function returning decompositions is allowed; rounding in the decomposition is not covered"
  },
  {
   "property": "C80",
   "status": "proved",
   "theorems": [
    "C80_reads",
    "C80_round_trip",
    "C80_order",
    "C80_listed",
    "C80_default"
   ],
   "note": "the data format itself (JSON, YAML) is not modelled; the code generated by serde's derive is modelled as serde documents it"
  },
  {
   "property": "C81",
   "status": "proved",
   "theorems": [
    "C81_pose_error",
    "C81_f64"
   ],
   "note": "atan2 of the libm is assumed right up to a bound; rotations more than a third of a turn apart are not covered (at half a turn the rotation vector jumps)"
  },
  {
   "property": "C82",
   "status": "proved",
   "theorems": [
    "C82_converges",
    "C82_f64"
   ],
   "note": "LU solve only; constraints with some but not all rotations, redundant arms and ignored joints are covered by C71 over the reals only; the error bound of the libm is a hypothesis"
  },
  {
   "property": "C83",
   "status": "proved",
   "theorems": [
    "C83_end_pose",
    "C83_ok",
    "C83_blind",
    "C83_nan_orientation",
    "C83_rotation_refuted"
   ],
   "note": "that the libm returns NaN for the sine and cosine of NaN and infinity, as IEEE 754 asks, is a hypothesis"
  },
  {
   "property": "C84",
   "status": "proved",
   "theorems": [
    "C84_set_positions",
    "C84_err_restores",
    "C84_success_refuted"
   ],
   "note": "for chains in which no joint is listed twice and no joint mimics two joints of the chain"
  },
  {
   "property": "C85",
   "status": "proved",
   "theorems": [
    "C85_same_solution",
    "C85_same_positions",
    "C85_whole_refuted"
   ],
   "note": "over the reals, with or without a null-space function; the SVD is any that meets its contract, of which C79 exhibits one"
  },
  {
   "property": "C86",
   "status": "proved",
   "theorems": [
    "C86_twins",
    "C86_moved",
    "C86_clone",
    "C86_clone_order_refuted"
   ],
   "note": "client programs are related by making corresponding calls as long as the answers correspond (client_twin); clones of branching robots are covered for the calls that do not read child lists, because clone reverses the order of siblings (C24)"
  },
  {
   "property": "C87",
   "status": "proved",
   "theorems": [
    "C87_verdict",
    "C87_hit",
    "C87_stop",
    "C87_missed",
    "C87_more_tries",
    "C87_wider"
   ],
   "note": "for starts inside the limits of arms without mimic children (as C32) the three results are exhaustive; C87_hit and C87_more_tries need neither"
  },
  {
   "property": "C88",
   "status": "proved",
   "theorems": [
    "C88_stays",
    "C88_own_pose",
    "C88_singular",
    "C88_zero_tolerance",
    "C88_here_refuted"
   ],
   "note": "over the reals, with nalgebra's LU as modelled in C66 and any SVD that meets its contract (C79 exhibits one)"
  },
  {
   "property": "C89",
   "status": "proved",
   "theorems": [
    "C89_solver",
    "C89_chain",
    "C89_center_of_mass",
    "C89_after",
    "C89_asked",
    "C89_cut_arm_refuted"
   ],
   "note": "for chains whose nodes come after their parents (C18 says which constructors give them) and arms without mimic links; update_velocities and update_link_transforms are not covered"
  },
  {
   "property": "C90",
   "status": "proved",
   "theorems": [
    "C90_order",
    "C90_first_twice",
    "C90_twice",
    "C90_mixed_up",
    "C90_last_twice",
    "C90_twice_refuted"
   ],
   "note": "C90_order is for names the arm has (which unknown name is reported depends on the order, C35); C90_twice and C90_last_twice are for one name given twice, without a null-space function"
  },
  {
   "property": "C91",
   "status": "proved",
   "theorems": [
    "C91_solver",
    "C91_forward",
    "C91_center_of_mass",
    "C91_redundant_refuted"
   ],
   "note": "over the reals, with nalgebra's LU as modelled in C66; C91_solver is for arms without mimic links, without ignored joints and with no more joints than constrained coordinates; C91_redundant_refuted shows why the last condition is needed, for any SVD that meets its contract"
  },
  {
   "property": "C92",
   "status": "proved",
   "theorems": [
    "C92_solver",
    "C92_forward",
    "C92_setters",
    "C92_center_of_mass",
    "C92_reference",
    "C92_limits_refuted",
    "C92_ignored_refuted"
   ],
   "note": "over the reals, with nalgebra's LU as modelled in C66 and any SVD that meets its contract, for arms without mimic links; the two _refuted theorems show what limits in the wrong order and ignored joints in a square system do"
  },
  {
   "property": "C93",
   "status": "proved",
   "theorems": [
    "C93_solver",
    "C93_forward",
    "C93_setters",
    "C93_center_of_mass",
    "C93_image",
    "C93_planar"
   ],
   "note": "over the reals, with nalgebra's LU as modelled in C66 and any SVD that meets its contract, for arms without mimic links; in floating point the signs of zeros may differ"
  },
  {
   "property": "C94",
   "status": "proved",
   "theorems": [
    "C94_forward",
    "C94_inverse",
    "C94_distance",
    "C94_one_place"
   ],
   "note": "over the reals; the description is what urdf_rs hands over, its XML parser is not modelled; the linear solvers of C94_inverse are arbitrary"
  },
  {
   "property": "C95",
   "status": "proved",
   "theorems": [
    "C95_center_of_mass",
    "C95_links",
    "C95_drawn_at_own_joint_refuted"
   ],
   "note": "over the reals; C95_links states what update_link_transforms does, C95_drawn_at_own_joint_refuted that this is not what the description says"
  },
  {
   "property": "C96",
   "status": "proved",
   "theorems": [
    "C96_shuffled",
    "C96_reach",
    "C96_vector_order_refuted",
    "C96_base_refuted",
    "C96_mimic_order_refuted"
   ],
   "note": "for any scalar type, so bit by bit in floating point; the clients are those of C86; the _refuted theorems show what does depend on the order of the tags"
  },
  {
   "property": "C97",
   "status": "proved",
   "theorems": [
    "C97_obeyed",
    "C97_one_posture",
    "C97_chained_refuted"
   ],
   "note": "over the reals, the refutation in f64; the robot has just been loaded, so joints that are not told anything stand at zero; tags that mimic a joint with a mimic tag of its own are not obeyed (C97_chained_refuted)"
  }
 ]
}