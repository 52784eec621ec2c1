{
 "claims": [
  {
   "property": "C01",
   "status": "proved",
   "theorems": [
    "C01_group",
    "C01_inverse",
    "C01_points",
    "C01_homogeneous",
    "C01_closed"
   ],
   "note": ""
  },
  {
   "property": "C02",
   "status": "proved",
   "theorems": [
    "C02_matrices",
    "C02_action",
    "C02_inverse",
    "C02_fields"
   ],
   "note": ""
  },
  {
   "property": "C03",
   "status": "proved",
   "theorems": [
    "C03_power",
    "C03_duality"
   ],
   "note": ""
  },
  {
   "property": "C04",
   "status": "proved",
   "theorems": [
    "C04_bracket",
    "C04_frame_change"
   ],
   "note": ""
  },
  {
   "property": "C05",
   "status": "proved",
   "theorems": [
    "C05_dense",
    "C05_symmetric_arguments",
    "C05_entries",
    "C05_inverse",
    "C05_rotate"
   ],
   "note": "setDiagonal (leaves off-diagonal entries untouched) is modelled, not part of the claim."
  },
  {
   "property": "C06",
   "status": "proved",
   "theorems": [
    "C06_matrix",
    "C06_nonnegative",
    "C06_inverse",
    "C06_momentum"
   ],
   "note": ""
  },
  {
   "property": "C07",
   "status": "proved",
   "theorems": [
    "C07_equivariant",
    "C07_action",
    "C07_point_masses"
   ],
   "note": ""
  },
  {
   "property": "C08",
   "status": "proved",
   "theorems": [
    "C08_sum",
    "C08_algebra",
    "C08_minus",
    "C08_point_masses",
    "C08_tiny_masses_refuted"
   ],
   "note": "Exact when the total mass is at least epsilon (or both masses are zero); the refuted theorem shows the sum is wrong below epsilon."
  },
  {
   "property": "C09",
   "status": "proved",
   "theorems": [
    "C09_operators"
   ],
   "note": ""
  },
  {
   "property": "C10",
   "status": "proved",
   "theorems": [
    "C10_dynamic_parameters",
    "C10_pseudo_inertia",
    "C10_log_cholesky",
    "C10_log_cholesky_jacobian"
   ],
   "note": ""
  },
  {
   "property": "C11",
   "status": "proved",
   "theorems": [
    "C11_solids"
   ],
   "note": ""
  },
  {
   "property": "C12",
   "status": "proved",
   "theorems": [
    "C12_exact_rotation",
    "C12_exact_flow",
    "C12_exp3",
    "C12_axis",
    "C12_zero"
   ],
   "note": "Bounds in real arithmetic: eps is a positive parameter at most 1/4; rounding is not modelled."
  },
  {
   "property": "C13",
   "status": "proved",
   "theorems": [
    "C13_exact_flow",
    "C13_exact_screw",
    "C13_exp6",
    "C13_rotation",
    "C13_rotation_boundary_refuted",
    "C13_translation",
    "C13_screw"
   ],
   "note": "exp6 and exp3 choose different branches exactly on the threshold, where their rotations differ: C13_rotation_boundary_refuted. Elsewhere they are equal."
  },
  {
   "property": "C14",
   "status": "proved",
   "theorems": [
    "C14_rotation",
    "C14_product",
    "C14_opposite",
    "C14_conjugate",
    "C14_assign",
    "C14_normalize",
    "C14_normalize_unit",
    "C14_angle",
    "C14_exact_exp",
    "C14_exp3",
    "C14_exp3_norm",
    "C14_exp3_zero",
    "C14_exp6"
   ],
   "note": "Eigen's quaternion product, conjugate and toRotationMatrix are modelled by their formulas."
  },
  {
   "property": "C15",
   "status": "proved",
   "theorems": [
    "C15_matrix",
    "C15_jacobian",
    "C15_frames",
    "C15_inverse",
    "C15_jacobian_rate",
    "C15_from_matrix"
   ],
   "note": "Eigen's eulerAngles(2,1,0) is a parameter of matrixToRpy, with its documented ranges as hypotheses."
  },
  {
   "property": "C16",
   "status": "proved",
   "theorems": [
    "C16_skew"
   ],
   "note": ""
  },
  {
   "property": "C17",
   "status": "proved",
   "theorems": [
    "C17_difference_integrate",
    "C17_integrate_difference",
    "C17_interpolate",
    "C17_distance"
   ],
   "note": ""
  },
  {
   "property": "C18",
   "status": "proved",
   "theorems": [
    "C18_integrate",
    "C18_difference_integrate",
    "C18_integrate_difference",
    "C18_zero",
    "C18_additive"
   ],
   "note": ""
  },
  {
   "property": "C19",
   "status": "partial",
   "theorems": [
    "C19_start",
    "C19_end_partial",
    "C19_so2_refuted",
    "C19_integrate_difference",
    "C19_distance"
   ],
   "note": "Start point exact for every group; end point to the stated precision for every group except the circle between nearly opposite configurations, where the property is false (C19_so2_refuted). Products are modelled with the generic interpolation, as in the code."
  },
  {
   "property": "C20",
   "status": "proved",
   "theorems": [
    "C20_flow",
    "C20_integrate",
    "C20_zero",
    "C20_difference_integrate",
    "C20_integrate_difference"
   ],
   "note": ""
  },
  {
   "property": "C21",
   "status": "proved",
   "theorems": [
    "C21_norm",
    "C21_sequences",
    "C21_zero",
    "C21_so3",
    "C21_se3"
   ],
   "note": "The precision eps is explicit; the bounds cover both branches of the exponential."
  },
  {
   "property": "C22",
   "status": "proved",
   "theorems": [
    "C22_wellFormed",
    "C22_cover",
    "C22_added"
   ],
   "note": "Histories of addJoint (ordinary joints and mimics of ordinary joints of the same model), appendBodyToJoint, addFrame and assignments of gravity/armature."
  },
  {
   "property": "C23",
   "status": "proved",
   "theorems": [
    "C23_supports",
    "C23_subtrees",
    "C23_subtree_universe",
    "C23_children",
    "C23_mimic"
   ],
   "note": ""
  },
  {
   "property": "C24",
   "status": "partial",
   "theorems": [
    "C24_joint",
    "C24_joint_any_partial",
    "C24_frame",
    "C24_mimic_refuted"
   ],
   "note": "Holds for wrong sizes, wrong parents and frames. The refuted theorem: a mimic joint referring to a joint index the model does not have makes addJoint throw after njoints was incremented."
  },
  {
   "property": "C25",
   "status": "proved",
   "theorems": [
    "C25_joint",
    "C25_frame",
    "C25_exists",
    "C25_addFrame"
   ],
   "note": ""
  },
  {
   "property": "C26",
   "status": "proved",
   "theorems": [
    "C26_body",
    "C26_mass",
    "C26_inertia"
   ],
   "note": ""
  },
  {
   "property": "C27",
   "status": "proved",
   "theorems": [
    "C27_lca",
    "C27_hasAncestor"
   ],
   "note": ""
  },
  {
   "property": "C28",
   "status": "proved",
   "theorems": [
    "C28_placement",
    "C28_update"
   ],
   "note": "Any previous data contents; orders 0, 1 and 2; updateGlobalPlacements."
  },
  {
   "property": "C29",
   "status": "proved",
   "theorems": [
    "C29_velocity",
    "C29_support_sum",
    "C29_acceleration",
    "C29_reference_frames",
    "C29_classical",
    "C29_relative"
   ],
   "note": "Velocity is proved to be the twist of the computed placement along every differentiable trajectory, and acceleration its derivative, for valid configurations."
  },
  {
   "property": "C30",
   "status": "proved",
   "theorems": [
    "C30_velocity",
    "C30_velocity_from_kinematics",
    "C30_columns",
    "C30_single",
    "C30_universe"
   ],
   "note": "For every tree built by the API without zero-dof joints, mimic joints included: J*w = getVelocity in the three reference frames, column footprint, computeJointJacobian, the universe. Zero-dof joints (empty composites) excluded."
  },
  {
   "property": "C31",
   "status": "proved",
   "theorems": [
    "C31_jacobian",
    "C31_jacobian_columns",
    "C31_jacobian_single",
    "C31_jacobian_universe",
    "C31_placements",
    "C31_placements_fk",
    "C31_placement_single",
    "C31_motion",
    "C31_reference_frames"
   ],
   "note": "Placements, velocities, accelerations, classical accelerations and Jacobians of frames; computeFrameJacobian equals getFrameJacobian columnwise in the three reference frames."
  },
  {
   "property": "C32",
   "status": "proved",
   "theorems": [
    "C32_virtual_power",
    "C32_external_forces",
    "C32_newton_euler"
   ],
   "note": ""
  },
  {
   "property": "C33",
   "status": "proved",
   "theorems": [
    "C33_affine",
    "C33_gravity",
    "C33_gravity_power",
    "C33_external_forces"
   ],
   "note": ""
  },
  {
   "property": "C34",
   "status": "proved",
   "theorems": [
    "C34_world",
    "C34_local",
    "C34_symmetric",
    "C34_psd",
    "C34_pd",
    "C34_checker",
    "C34_order_refuted",
    "C34_mimic_first_undefined",
    "C34_mimic_last_refuted"
   ],
   "note": "Both conventions, masses zero or at least the epsilon of Inertia::operator+=. Refuted outside the quantifier: trees not numbered depth first, mimic joints of the first joint (out-of-bounds read), a mimic joint at the end of a subtree (entries never computed)."
  },
  {
   "property": "C35",
   "status": "proved",
   "theorems": [
    "C35_world",
    "C35_local",
    "C35_world_forces",
    "C35_local_forces",
    "C35_inverse",
    "C35_solid",
    "C35_inversion_exists"
   ],
   "note": "Both conventions, with and without external forces, arbitrary initial data; the multi-dof block inversion (Eigen LLT) is a parameter with the specification invertsPD, shown inhabited. Mimic joints are excluded: calc_aba of a mimic joint is an assertion failure."
  },
  {
   "property": "C36",
   "status": "partial",
   "theorems": [
    "C36_kinetic_partial",
    "C36_no_mimic",
    "C36_mimic_refuted",
    "C36_potential",
    "C36_mechanical",
    "C36_potential_rate",
    "C36_power_balance"
   ],
   "note": "Kinetic energy equals half v.M.v when the degrees of freedom followed by mimic joints have no rotor inertia (always so without mimic joints); refuted otherwise with a witness. Potential, mechanical energy and the power balance along trajectories are proved for all models."
  },
  {
   "property": "C37",
   "status": "proved",
   "theorems": [
    "C37_momentum",
    "C37_linear",
    "C37_map",
    "C37_inertia",
    "C37_variation"
   ],
   "note": "Momentum, centroidal map (computeCentroidalMap and ccrba, mimic joints included), composite inertia, linear part and time derivative. The time variation of the map itself (dccrba) is C55."
  },
  {
   "property": "C38",
   "status": "proved",
   "theorems": [
    "C38_mass",
    "C38_com",
    "C38_velocity",
    "C38_acceleration",
    "C38_level",
    "C38_jacobian",
    "C38_jacobian_com",
    "C38_jacobian_from_crba",
    "C38_com_from_crba_refuted"
   ],
   "note": "Masses, centres of mass of the tree and of every subtree, velocities, accelerations, Jacobian; getComFromCrba is refuted with a witness. jacobianSubtreeCenterOfMass is not modelled."
  },
  {
   "property": "C39",
   "status": "proved",
   "theorems": [
    "C39_body",
    "C39_parameters",
    "C39_torque",
    "C39_joint",
    "C39_frame",
    "C39_kinetic",
    "C39_potential",
    "C39_static",
    "C39_kinematic",
    "C39_kinematic_frame",
    "C39_range"
   ],
   "note": "Body, joint, frame, joint-torque, static, kinetic- and potential-energy and kinematic regressors, for every tree without mimic joints (the code asserts that); the rotor inertias are not covered by the torque and kinetic regressors."
  },
  {
   "property": "C40",
   "status": "proved",
   "theorems": [
    "C40_decompose",
    "C40_pivots",
    "C40_products",
    "C40_inverses",
    "C40_Mv",
    "C40_solve",
    "C40_Minv",
    "C40_crba"
   ],
   "note": "Depth-first numbered trees without mimic joints and without joints of zero dof. The matrix versions run the vector versions column by column and are not modelled. C40_Minv covers cholesky::computeMinv."
  },
  {
   "property": "C41",
   "status": "proved",
   "theorems": [
    "C41_rotation",
    "C41_velocity",
    "C41_twist",
    "C41_bias",
    "C41_neutral",
    "C41_quaternion",
    "C41_mimic",
    "C41_mimic_helical_refuted"
   ],
   "note": "Covers every joint of the default collection, mimic joints and nested composites. Unbounded mimic joints away from the atan2 cut. The refuted theorem shows that mimicking a helical joint breaks v = S v_q. The stale bias of calc(data, Blank, v) is described in DESIGN.md."
  },
  {
   "property": "C42",
   "status": "proved",
   "theorems": [
    "C42_pairs",
    "C42_exist",
    "C42_find",
    "C42_add",
    "C42_remove",
    "C42_out_of_range",
    "C42_self",
    "C42_add_all",
    "C42_set",
    "C42_set_size",
    "C42_clear",
    "C42_object",
    "C42_object_frame",
    "C42_object_frame_undefined",
    "C42_names"
   ],
   "note": "Histories of addGeometryObject (both overloads), addCollisionPair, addAllCollisionPairs, setCollisionPairs, removeCollisionPair, removeAllCollisionPairs. The code of removeGeometryObject and appendGeometryModel breaks the lookups, see C43 and C58."
  },
  {
   "property": "C43",
   "status": "partial",
   "theorems": [
    "C43_remove_partial",
    "C43_first_pair_undefined",
    "C43_unknown",
    "C43_lookup_refuted"
   ],
   "note": "Proved when the first listed pair does not mention the object; otherwise the loop decrements begin() (undefined). C43_lookup_refuted: the pair table is not re-indexed, so lookups are wrong afterwards and duplicates can be added."
  },
  {
   "property": "C44",
   "status": "proved",
   "theorems": [
    "C44_inside",
    "C44_inside_prec",
    "C44_inside_dual",
    "C44_project",
    "C44_project_inside",
    "C44_project_twice",
    "C44_project_dual",
    "C44_project_dual_twice",
    "C44_dual_frictionless_refuted",
    "C44_moreau",
    "C44_weighted",
    "C44_correction",
    "C44_complementarity",
    "C44_radial"
   ],
   "note": "Membership, projection (existence, uniqueness, idempotence), Moreau decomposition, weighted and radial projections. C44_dual_frictionless_refuted: for mu = 0 the dual projection sends vertical vectors of the dual cone to zero."
  },
  {
   "property": "C45",
   "status": "proved",
   "theorems": [
    "C45_rnea",
    "C45_aba",
    "C45_data_reuse",
    "C45_rnea_sizes",
    "C45_aba_sizes_refuted",
    "C45_collisions",
    "C45_collisions_stop",
    "C45_pairs",
    "C45_index_refuted"
   ],
   "note": "Threads are lists of atomic steps on a sequentially consistent memory; every distribution, splitting and interleaving is covered. The unsynchronised accesses to is_colliding are a data race in C++. Two findings: abaInParallel does not check the sizes of tau; the reported colliding pair depends on the schedule."
  },
  {
   "property": "C46",
   "status": "partial",
   "theorems": [
    "C46_create",
    "C46_resize_partial",
    "C46_resize_refuted",
    "C46_resize_empty_refuted",
    "C46_geometry_partial",
    "C46_geometry_refuted"
   ],
   "note": "resize is right only up to twice the old size; beyond it (and always for geometry models) new entries are default constructed: C46_resize_refuted, C46_geometry_refuted."
  },
  {
   "property": "C47",
   "status": "partial",
   "theorems": [
    "C47_append_succeeds",
    "C47_append_joints",
    "C47_append_placements",
    "C47_append_positions",
    "C47_append_velocities",
    "C47_append_kinetic",
    "C47_append_mass",
    "C47_append_inertias",
    "C47_append_frames",
    "C47_append_references",
    "C47_append_rejects",
    "C47_append_lost_refuted",
    "C47_append_mimic_refuted",
    "C47_append_frame_inertia_refuted",
    "C47_reduce_succeeds",
    "C47_reduce_joints",
    "C47_reduce_placements",
    "C47_reduce_motion",
    "C47_reduce_kinetic",
    "C47_reduce_mass",
    "C47_reduce_inertias",
    "C47_reduce_frames",
    "C47_reduce_references",
    "C47_reduce_rejects",
    "C47_reduce_armature_refuted",
    "C47_reduce_universe_refuted",
    "C47_reduce_range_refuted",
    "C47_reduce_frameless_refuted",
    "C47_reduce_mimicked_refuted",
    "C47_reduce_shared_name_refuted"
   ],
   "note": "buildReducedModel and appendModel proved on models without geometry. Missing: the geometry models, the parentFrame indexes of the frames of the result, and frames that carry an inertia in the kinetic clause of appendModel. The code drops the armature (both functions), gravity and name (appendModel), and moves the centre of mass of a joint when a frame away from its origin carries inertia; these clauses of the property are refuted."
  },
  {
   "property": "C48",
   "status": "partial",
   "theorems": [
    "C48_transform",
    "C48_kinematics",
    "C48_acceleration",
    "C48_build",
    "C48_rejects_range",
    "C48_rejects_type",
    "C48_rejects_universe",
    "C48_bound_refuted",
    "C48_followed_refuted",
    "C48_mimic_of_mimic_refuted",
    "C48_pairing_refuted",
    "C48_references_refuted",
    "C48_empty_refuted"
   ],
   "note": "Proved for every assembled model and every pair (a,b) with 0<a<b<njoints, a ordinary, b of a mimicable type with as many coordinates as a and not followed by a mimic joint, and for lists of such pairs. Refuted outside: b = njoints passes the bound check (C48_bound_refuted), a followed b or a mimic a lose a scaling (C48_followed_refuted, C48_mimic_of_mimic_refuted), the mimicked list loses its pairing, reference configurations keep their size, an empty list leaves the output untouched."
  },
  {
   "property": "C49",
   "status": "partial",
   "theorems": [
    "C49_plain_partial",
    "C49_helical_refuted",
    "C49_mimic_refuted"
   ],
   "note": "Holds without helical and mimic joints; refuted for both (witness models)."
  },
  {
   "property": "C50",
   "status": "partial",
   "theorems": [
    "C50_reflexive_symmetric",
    "C50_sound_partial",
    "C50_helical_refuted",
    "C50_mimic_refuted",
    "C50_reference_names_refuted"
   ],
   "note": "Reflexive, symmetric; sound for joints whose operator== compares their parameters. Refuted for aligned helical pitch, mimic parameters and names of reference configurations."
  },
  {
   "property": "C51",
   "status": "proved",
   "theorems": [
    "C51_random",
    "C51_infinite",
    "C51_group"
   ],
   "note": "Limits are option R (None infinite); the random stream is any sequence in [0,1]."
  },
  {
   "property": "C52",
   "status": "partial",
   "theorems": [
    "C52_matrix",
    "C52_left",
    "C52_right_partial",
    "C52_vector_refuted",
    "C52_vector_diagonal",
    "C52_wide_undefined",
    "C52_inverse",
    "C52_orthogonal",
    "C52_normal_refuted"
   ],
   "note": "T * rhs equals the dense product for a square right-hand side only: the number of off-diagonal rows is taken from the number of columns of rhs, so for a vector the off-diagonal terms are dropped (C52_vector_refuted, C52_vector_diagonal) and for more columns than rows the code reads outside its storage (C52_wide_undefined). lhs * T, the inverse and orthonormalisation are covered for all sizes; orthonormalisation does not normalise (C52_normal_refuted)."
  },
  {
   "property": "C53",
   "status": "partial",
   "theorems": [
    "C53_joint_frame_partial",
    "C53_dangling_refuted"
   ],
   "note": "Holds when the parent joint has a frame; otherwise (release build) the new frame is its own parent (refuted theorem)."
  },
  {
   "property": "C54",
   "status": "partial",
   "theorems": [
    "C54_joint_partial",
    "C54_fixed_axes",
    "C54_moving_axes_refuted",
    "C54_frame_partial",
    "C54_frame_mimic_refuted"
   ],
   "note": "Proved for joints whose axes do not depend on the configuration (all but SphericalZYX, Universal, composites); frames without mimic joints. Refuted for SphericalZYX and for frames behind a mimic joint, with witnesses."
  },
  {
   "property": "C55",
   "status": "partial",
   "theorems": [
    "C55_map",
    "C55_derivative_partial",
    "C55_rate_partial",
    "C55_moving_axes_refuted",
    "C55_variation_partial",
    "C55_stale_refuted"
   ],
   "note": "Trees without mimic joints (the code asserts that). The derivative and the rate are proved for joints with axes fixed in the joint frame; C55_moving_axes_refuted shows that for a spherical ZYX joint dhg differs from Ag a + dAg v. computeCentroidalMapTimeVariation reads the velocity of the centre of mass left in Data by an earlier call: C55_stale_refuted."
  },
  {
   "property": "C56",
   "status": "proved",
   "theorems": [
    "C56_placements"
   ],
   "note": ""
  },
  {
   "property": "C57",
   "status": "proved",
   "theorems": [
    "C57_create",
    "C57_one",
    "C57_one_range",
    "C57_all",
    "C57_object",
    "C57_map"
   ],
   "note": ""
  },
  {
   "property": "C58",
   "status": "partial",
   "theorems": [
    "C58_append",
    "C58_lookup_undefined",
    "C58_lookup_refuted"
   ],
   "note": "Objects and pairs proved; the last part is refuted: the pair table is not extended, so lookups of appended objects are out of range."
  },
  {
   "property": "C59",
   "status": "proved",
   "theorems": [
    "C59_collisions",
    "C59_first",
    "C59_results"
   ],
   "note": "The answers of the collision library for one pair are a parameter."
  },
  {
   "property": "C60",
   "status": "proved",
   "theorems": [
    "C60_coordinates",
    "C60_integrate",
    "C60_motion",
    "C60_interpolate",
    "C60_difference",
    "C60_round_trip",
    "C60_zero",
    "C60_neutral",
    "C60_normalize",
    "C60_isNormalized",
    "C60_distance",
    "C60_distance_output_refuted"
   ],
   "note": "C60_distance_output_refuted: the version of squaredDistance with an output argument adds to the previous content."
  },
  {
   "property": "C61",
   "status": "proved",
   "theorems": [
    "C61_decomposition",
    "C61_sizes",
    "C61_complete",
    "C61_early",
    "C61_rank_refuted"
   ],
   "note": "C61_rank_refuted: when the loop is left early, rank() is one less than the number of columns built (unless one column was built)."
  },
  {
   "property": "C62",
   "status": "partial",
   "theorems": [
    "C62_bound",
    "C62_monotone",
    "C62_eigenvector",
    "C62_residual_partial",
    "C62_first_iteration_refuted",
    "C62_sign_refuted",
    "C62_lowest",
    "C62_lowest_refuted"
   ],
   "note": "The criterion bounds the residual of A A only when the loop ends after the first iteration: C62_first_iteration_refuted. C62_sign_refuted: the largest eigenvalue is a norm. C62_lowest_refuted: lowest on the identity divides zero by zero."
  },
  {
   "property": "C63",
   "status": "partial",
   "theorems": [
    "C63_product_partial",
    "C63_moving_axes_refuted",
    "C63_skew_partial",
    "C63_sparsity",
    "C63_after_derivatives_partial"
   ],
   "note": "Proved for the joints whose axes are fixed in the joint frame. Refuted for joints whose axes move (SphericalZYX, Universal, ...): the code takes the time derivative of the Jacobian columns as v x J only, without the joint's own bias. See C63_moving_axes_refuted."
  },
  {
   "property": "C64",
   "status": "partial",
   "theorems": [
    "C64_differential_partial",
    "C64_external_partial",
    "C64_own_matrices_partial",
    "C64_mass",
    "C64_armature_refuted",
    "C64_moving_axes_refuted",
    "C64_tau",
    "C64_tau_external",
    "C64_sparsity"
   ],
   "note": "Proved for joints whose axes are fixed in the joint frame; the part about the acceleration, data.tau and the zeros for every joint. Refuted for joints whose axes move (C64_moving_axes_refuted), and the overload with external forces and the caller's matrix leaves the rotor inertias out of dtau_da (C64_armature_refuted)."
  },
  {
   "property": "C65",
   "status": "partial",
   "theorems": [
    "C65_gravity_partial",
    "C65_static_partial",
    "C65_moving_axes_refuted",
    "C65_values",
    "C65_sparsity"
   ],
   "note": "Proved for joints whose axes are fixed in the joint frame; the values and the zeros for every joint. Refuted for joints whose axes move (C65_moving_axes_refuted)."
  },
  {
   "property": "C66",
   "status": "proved",
   "theorems": [
    "C66_inverse",
    "C66_after_aba",
    "C66_after_aba_forces",
    "C66_forward",
    "C66_order_refuted"
   ],
   "note": "Depth-first numbering is needed: C66_order_refuted gives a model that the API builds, with a positive definite mass matrix, on which the result is not the inverse."
  },
  {
   "property": "C67",
   "status": "partial",
   "theorems": [
    "C67_differential_partial",
    "C67_external_partial",
    "C67_optimized_partial",
    "C67_optimized_external_partial",
    "C67_minverse",
    "C67_minverse_optimized",
    "C67_acceleration"
   ],
   "note": "C67_minverse and C67_acceleration hold for every joint type. The derivatives with respect to q and v are proved for joints whose axes are fixed in the joint frame (as in C64): missing are spherical ZYX, universal and helical-like joints whose axes vary with q."
  },
  {
   "property": "C68",
   "status": "partial",
   "theorems": [
    "C68_velocity_partial",
    "C68_velocity_aligned_partial",
    "C68_acceleration_partial",
    "C68_one_dof",
    "C68_acceleration_aligned_partial",
    "C68_acceleration_refuted",
    "C68_kept",
    "C68_fresh",
    "C68_range",
    "C68_five"
   ],
   "note": "Missing: joints whose axes vary in the joint frame (spherical ZYX, universal). The acceleration derivatives outside of the LOCAL frame additionally need joints below the first level to have commuting axes: C68_acceleration_refuted shows that the code is wrong otherwise (it uses dJ = ov_i x J where ov_parent x J is needed). In LOCAL_WORLD_ALIGNED the matrices differentiate the velocity at a fixed point of the world; C68_velocity_aligned_partial and C68_acceleration_aligned_partial give the missing term for getVelocity/getAcceleration."
  },
  {
   "property": "C69",
   "status": "partial",
   "theorems": [
    "C69_velocity_partial",
    "C69_acceleration_partial",
    "C69_kept",
    "C69_fresh",
    "C69_rejected",
    "C69_five"
   ],
   "note": "Missing: joints whose axes vary in the joint frame (spherical ZYX, universal)."
  },
  {
   "property": "C70",
   "status": "partial",
   "theorems": [
    "C70_velocity_partial",
    "C70_acceleration_partial",
    "C70_kept"
   ],
   "note": "Missing: joints whose axes vary in the joint frame, and for the acceleration outside of the LOCAL frame joints below the first level with non commuting axes (same error as C68_acceleration_refuted)."
  },
  {
   "property": "C71",
   "status": "partial",
   "theorems": [
    "C71_derivative_partial",
    "C71_variation",
    "C71_zero",
    "C71_content",
    "C71_local_refuted"
   ],
   "note": "C71_variation holds for every joint type. Missing in C71_derivative_partial: joints whose axes vary in the joint frame (spherical ZYX, universal), and in the LOCAL frame joints below the first level with non commuting axes: C71_local_refuted shows that the code is wrong there (it writes brackets between the columns of one joint, whose derivative is zero)."
  },
  {
   "property": "C72",
   "status": "proved",
   "theorems": [
    "C72_throws",
    "C72_cones",
    "C72_answer",
    "C72_fixed_point",
    "C72_warm_start",
    "C72_criterion_refuted"
   ],
   "note": "The conjecture that a residual within the precision means a solution is refuted (C72_criterion_refuted): pgs-solver.hxx line 91 assigns the velocity instead of adding to it. The other clauses are proved for the code as it is. Size checks of the arguments are not modelled."
  },
  {
   "property": "C73",
   "status": "proved",
   "theorems": [
    "C73_throws",
    "C73_result",
    "C73_exact",
    "C73_warm_start",
    "C73_overload_refuted"
   ],
   "note": "The damped solve of the Delassus operator is a parameter assumed exact; the estimate L of the largest eigenvalue is any positive number. The overload with an initial guess is refuted (C73_overload_refuted)."
  },
  {
   "property": "C74",
   "status": "partial",
   "theorems": [
    "C74_kinematics",
    "C74_jacobians",
    "C74_dynamics",
    "C74_com",
    "C74_centroidal",
    "C74_energy",
    "C74_gravity_partial",
    "C74_gravity_refuted",
    "C74_rate_partial",
    "C74_rate_refuted",
    "C74_repeat_refuted"
   ],
   "note": "Trees without mimic joints (asserted by the code) and numbered depth first (the mass matrix block needs it). g is proved for a gravity without angular part and refuted otherwise; dhg is proved without gravity and with data.f[0] = 0; C74_rate_refuted and C74_repeat_refuted show that otherwise it differs (gravity included, f[0] never reset)."
  },
  {
   "property": "C75",
   "status": "proved",
   "theorems": [
    "C75_forward",
    "C75_unique",
    "C75_gauss",
    "C75_state",
    "C75_aba",
    "C75_impulse",
    "C75_energy",
    "C75_impulse_state",
    "C75_kkt",
    "C75_kkt_after",
    "C75_throws"
   ],
   "note": "The dense Cholesky solve of the linear-algebra library (LLT of JMinvJt) is a parameter that inverts the symmetric positive definite matrices; JMinvJt is proved to be one. Redundant constraints without damping are outside the hypotheses."
  },
  {
   "property": "C76",
   "status": "proved",
   "theorems": [
    "C76_derivative",
    "C76_Jexp3",
    "C76_Jexp3_ops",
    "C76_Jexp3_small",
    "C76_Jexp3_taylor_refuted",
    "C76_Jlog3_inverse",
    "C76_Jlog3_small",
    "C76_Jlog3_rate",
    "C76_Hlog3",
    "C76_quaternion",
    "C76_quaternion_taylor_refuted"
   ],
   "note": "The derivative of the exponential is proved at every rotation vector. C76_Jexp3_taylor_refuted and C76_quaternion_taylor_refuted record the two series errors found near the origin. Jlog3 and Hlog3 take the angle and the rotation vector; their composition with log3 of a matrix is C77_log3_rate."
  },
  {
   "property": "C77",
   "status": "proved",
   "theorems": [
    "C77_surjective",
    "C77_log3",
    "C77_log3_exact",
    "C77_log3_of_exp3",
    "C77_log3_half_turn",
    "C77_log3_angle_refuted",
    "C77_log3_rate",
    "C77_log6",
    "C77_log6_translation",
    "C77_exp6_log6",
    "C77_log6_exp6"
   ],
   "note": "C77_log3_angle_refuted records that near the identity the angle returned with the vector is off by about sqrt(eps)/24. Real-number semantics: rounding is not modelled, eps only appears in the thresholds and in the terms the code adds."
  },
  {
   "property": "C78",
   "status": "proved",
   "theorems": [
    "C78_Jexp6",
    "C78_Jexp6_ops",
    "C78_Jlog6",
    "C78_inverse"
   ],
   "note": "Outside the series zones (rotation angle above the threshold); inside them Jexp6 and Jlog6 use the series of C76 and are not bounded here."
  },
  {
   "property": "C79",
   "status": "proved",
   "theorems": [
    "C79_dIntegrate",
    "C79_dDifference",
    "C79_operators",
    "C79_transport",
    "C79_model_blocks",
    "C79_model_dIntegrate",
    "C79_model_dDifference",
    "C79_model_transport"
   ],
   "note": "integrate and difference are the exact motions (leadsTo); the computed ones are within the bounds of C13, C58-C60. Outside the series zones (turning, apart). dIntegrate is exact on vector spaces, SO(2), SE(2); on SO(3) and SE(3) up to the stated multiples of eps. dDifference is exact. Matrices that the caller does not zero keep their off-block entries (C79_model_blocks)."
  },
  {
   "property": "C80",
   "status": "proved",
   "theorems": [
    "C80_inertia",
    "C80_inertia_subtree",
    "C80_force",
    "C80_force_free",
    "C80_universe_refuted",
    "C80_rnea_only_refuted"
   ],
   "note": "Frames are added after the frame they are mounted on (framesOrdered: addFrame does not check it) and have rotation placements and masses that inertia addition accepts (goodFrames). C80_force asks for forwardKinematics(q, v, a) before rnea: rnea at this commit writes neither data.a nor data.oMi, so the documented precondition (rnea only) is not enough (C80_rnea_only_refuted). Frames of the universe: C80_universe_refuted."
  },
  {
   "property": "C81",
   "status": "proved",
   "theorems": [
    "C81_jacobian",
    "C81_data",
    "C81_refuses",
    "C81_zeros_needed",
    "C81_joint_jacobians_refuted",
    "C81_get",
    "C81_erases"
   ],
   "note": "Mimic joints are excluded by an assertion of the code. The size checks of the matrix argument are not modelled. C81_get asks for joints added depth first and of dimension at least 1 (the code uses contiguous columns idx_vs/nvSubtree and parents_fromRow). C81_data: for r = 0 data.com[0] is left undivided. C81_joint_jacobians_refuted: the documented side result (Jacobians of all joints) is not computed."
  },
  {
   "property": "C82",
   "status": "partial",
   "theorems": [
    "C82_velocity_partial",
    "C82_all_terms_partial",
    "C82_fresh",
    "C82_moving_axes_refuted"
   ],
   "note": "Proved for joints whose axes are constant in their own frame (fixedAxes); missing: spherical ZYX, universal and composites of such, for which the code leaves out the derivative of the axes. The size check of the output matrix is not modelled. C82_moving_axes_refuted shows the matrix is wrong for a spherical ZYX joint."
  },
  {
   "property": "C83",
   "status": "partial",
   "theorems": [
    "C83_point",
    "C83_frame",
    "C83_stacked",
    "C83_pattern",
    "C83_constructor",
    "C83_empty_span_refuted"
   ],
   "note": "The Jacobian, the pattern and the stacking are proved for all pairs of joints. The claim that the constructor succeeds is proved when neither joint is the universe (3D) or neither carries the other (6D); C83_empty_span_refuted shows that it is undefined behaviour otherwise: init rotates an empty vector. Size checks are not modelled; mimic joints are excluded."
  },
  {
   "property": "C84",
   "status": "partial",
   "theorems": [
    "C84_answer",
    "C84_solution",
    "C84_warm",
    "C84_throw",
    "C84_dynamics",
    "C84_correction_refuted",
    "C84_no_guess_refuted",
    "C84_two_joints_refuted"
   ],
   "note": "Proved for constraint_correction = 0 and for contacts of joints with the universe in LOCAL axes. C84_correction_refuted: constraint_correction is ignored. C84_no_guess_refuted: without a guess, on a fresh Data, impulse_c has size 0 and is written out of bounds. C84_two_joints_refuted: with two joints the second one receives the force instead of its opposite. Not proved: LOCAL_WORLD_ALIGNED contacts (the code applies the forces in local axes). Convergence of the iteration is not claimed. The sizes checked by getConstraintsJacobian are not modelled."
  },
  {
   "property": "C85",
   "status": "partial",
   "theorems": [
    "C85_new",
    "C85_sound",
    "C85_sound_refuted",
    "C85_other",
    "C85_mimic_refuted",
    "C85_mimic_subtree_refuted",
    "C85_mimic_leaf_undefined",
    "C85_model",
    "C85_sizes",
    "C85_parents",
    "C85_checkers"
   ],
   "note": "Characterised for models without mimic joints whose joints all have a dof. C85_sound_refuted: tables whose lastChild points before the joint are accepted although wrong. C85_mimic_refuted and C85_mimic_subtree_refuted: with mimic joints the Data created for the model is refused. C85_mimic_leaf_undefined: the constructor of Data reads out of bounds when only mimic joints follow a mimic joint."
  },
  {
   "property": "C86",
   "status": "partial",
   "theorems": [
    "C86_dense",
    "C86_sparse",
    "C86_sparse_natural",
    "C86_sparse_natural_refuted",
    "C86_sparse_singular",
    "C86_sizes",
    "C86_contact_solver"
   ],
   "note": "Proved for the dense operator and for the sparse operator with a fill-reducing ordering; the factorisations of Eigen are parameters with a contract that elimInv meets. C86_sparse_natural_refuted: with the natural ordering the sparse solveInPlace leaves the right-hand side unchanged. C86_sparse_singular: a failed factorisation is silent and the sparse solves return the right-hand side."
  },
  {
   "property": "C87",
   "status": "partial",
   "theorems": [
    "C87_motion",
    "C87_force",
    "C87_compose",
    "C87_queries",
    "C87_classical",
    "C87_classical_refuted"
   ],
   "note": "Proved for motions, forces, velocities, spatial accelerations and Jacobian columns, without aliasing of input and output. C87_classical_refuted: the classical acceleration in WORLD is not the change of frame of the one in LOCAL."
  },
  {
   "property": "C88",
   "status": "proved",
   "theorems": [
    "C88_copied",
    "C88_frame",
    "C88_throws",
    "C88_forward",
    "C88_relative"
   ],
   "note": "C88_relative shows that getRelativePlacement with the LOCAL convention is not updated by the copy."
  },
  {
   "property": "C89",
   "status": "proved",
   "theorems": [
    "C89_kinematics",
    "C89_bodies",
    "C89_universe_refuted"
   ],
   "note": "The description is the link tree returned by urdfdom; mimic tags are not modelled; the choice of the joint model from the URDF joint type and axis is C90. C89_universe_refuted: a fixed joint named universe is silently taken for the universe frame and the mass of its link is lost."
  },
  {
   "property": "C90",
   "status": "partial",
   "theorems": [
    "C90_motion",
    "C90_sizes",
    "C90_limits",
    "C90_continuous",
    "C90_planar_z_partial",
    "C90_planar_refuted"
   ],
   "note": "Proved for revolute, continuous and prismatic joints. For planar joints only with normal z (C90_planar_z_partial): the code ignores the axis of a planar joint (C90_planar_refuted). Mimic tags are not modelled."
  },
  {
   "property": "C91",
   "status": "partial",
   "theorems": [
    "C91_values",
    "C91_first",
    "C91_last_refuted",
    "C91_angle_refuted"
   ],
   "note": "Proved for distinct joint names, distinct tags and joints that are not mimic. Two parts of the statement are false of the code: C91_last_refuted (the first tag of a repeated name is kept, although the message says the last) and C91_angle_refuted (an angle for a continuous joint about an unaligned axis is ignored). Rotor parameters are C92; collision pairs are not modelled."
  },
  {
   "property": "C92",
   "status": "proved",
   "theorems": [
    "C92_values",
    "C92_twice"
   ],
   "note": "The coordinates of mimic joints are those of the joint they follow. Nothing is claimed when loading throws: the tags before the offending one have then been applied."
  }
 ]
}