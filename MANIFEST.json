{
 "claims": [
  {
   "property": "C01",
   "status": "proved",
   "theorems": [
    "C01_hat_cross",
    "C01_invhat"
   ],
   "note": "Proved for all vectors and matrices."
  },
  {
   "property": "C02",
   "status": "proved",
   "theorems": [
    "C02_rot_is_rotation",
    "C02_rot_unique",
    "C02_rot_conjugation"
   ],
   "note": "Proved; also uniqueness and the conjugation law."
  },
  {
   "property": "C03",
   "status": "proved",
   "theorems": [
    "C03_rot_group",
    "C03_rot_period"
   ],
   "note": "Proved, including injectivity modulo 2 pi."
  },
  {
   "property": "C04",
   "status": "proved",
   "theorems": [
    "C04_every_rotation_has_axis",
    "C04_R2rot_exact",
    "C04_R2rot_total"
   ],
   "note": "Proved for every rotation matrix whose angle has sine >= 1e-6; R2rot never yields NaN on a rotation."
  },
  {
   "property": "C05",
   "status": "proved",
   "theorems": [
    "C05_R2rot_near_identity",
    "C05_rot2q_R2rot_refuted"
   ],
   "note": "Proved. C05_rot2q_R2rot_refuted records that the axis returned near the identity is a Python list, which rot2q rejects with AttributeError."
  },
  {
   "property": "C06",
   "status": "partial",
   "theorems": [
    "C06_R2rot_half_turn_refuted",
    "C06_R2rot_half_turn_iff",
    "C06_R2rot_half_turn_partial"
   ],
   "note": "False of the code: the second sign in the half-turn branch reads B[0,2] instead of B[1,2]. Refuted with k=(0,3/5,4/5); the exact set of half turns that work is characterised, and the case |k_x| > 1e-6 is proved."
  },
  {
   "property": "C07",
   "status": "proved",
   "theorems": [
    "C07_q2R_rotation",
    "C07_q2R_homomorphism",
    "C07_q2R_double_cover"
   ],
   "note": "Proved."
  },
  {
   "property": "C08",
   "status": "proved",
   "theorems": [
    "C08_quatproduct_hamilton"
   ],
   "note": "Proved."
  },
  {
   "property": "C09",
   "status": "proved",
   "theorems": [
    "C09_total",
    "C09_R2q_correct",
    "C09_R2q_q2R"
   ],
   "note": "Proved for all rotation matrices through all four branches."
  },
  {
   "property": "C10",
   "status": "proved",
   "theorems": [
    "C10_rot2q"
   ],
   "note": "Proved (for an array axis)."
  },
  {
   "property": "C11",
   "status": "partial",
   "theorems": [
    "C11_q2rot_refuted",
    "C11_q2rot_partial",
    "C11_q2rot_exact"
   ],
   "note": "False at q=(-1,0,0,0) (division by sin(pi)). Proved for every other unit quaternion: exact above the 1e-6 threshold, within 2e-6 below it."
  },
  {
   "property": "C12",
   "status": "proved",
   "theorems": [
    "C12_quatjacobian_rate",
    "C12_quatjacobian_tangent"
   ],
   "note": "Proved for all differentiable curves."
  },
  {
   "property": "C13",
   "status": "proved",
   "theorems": [
    "C13_rpy2R",
    "C13_R2rpy_rpy2R",
    "C13_rpy2R_R2rpy",
    "C13_R2rpy_guard",
    "C13_gimbal_lock_raises"
   ],
   "note": "Proved, including the exact guard and rejection at gimbal lock."
  },
  {
   "property": "C14",
   "status": "proved",
   "theorems": [
    "C14_slerp_unit",
    "C14_slerp_geodesic",
    "C14_slerp_endpoints",
    "C14_slerp_sign",
    "C14_slerp_range",
    "C14_slerp_zero_quaternion"
   ],
   "note": "Proved in exact arithmetic. Sign independence needs the quaternions not to be orthogonal (two shortest paths)."
  },
  {
   "property": "C15",
   "status": "proved",
   "theorems": [
    "C15_screw_group",
    "C15_screw_power",
    "C15_screw_twist_wrench"
   ],
   "note": "Proved."
  },
  {
   "property": "C16",
   "status": "proved",
   "theorems": [
    "C16_action",
    "C16_group",
    "C16_isometry",
    "C16_faithful"
   ],
   "note": "Proved; inverse laws assume a rotation part (shown necessary by an example)."
  },
  {
   "property": "C17",
   "status": "proved",
   "theorems": [
    "C17_names",
    "C17_fwdkin_names"
   ],
   "note": "Proved for products of any length; also the frame names fwdkin returns (a tool erases the child name)."
  },
  {
   "property": "C18",
   "status": "partial",
   "theorems": [
    "C18_eq_is_closeness",
    "C18_eq_laws",
    "C18_symmetric_refuted",
    "C18_transitive_refuted",
    "C18_isclose_tol_refuted"
   ],
   "note": "The closeness characterisation, reflexivity and the bound on rotation entries are proved. Symmetry and transitivity of ==, and 'isclose(tol) bounds the error by tol', are false: refuted (rtol 1e-5 stays active)."
  },
  {
   "property": "C19",
   "status": "proved",
   "theorems": [
    "C19_accepts",
    "C19_stores",
    "C19_wf"
   ],
   "note": "Proved for all shapes and contents."
  },
  {
   "property": "C20",
   "status": "proved",
   "theorems": [
    "C20_fwdkin_chain",
    "C20_fwdkin_ignore",
    "C20_short"
   ],
   "note": "Proved for any number of joints, including mobile types in fwdkin."
  },
  {
   "property": "C21",
   "status": "proved",
   "theorems": [
    "C21_fwdkin_rigid"
   ],
   "note": "Proved."
  },
  {
   "property": "C22",
   "status": "proved",
   "theorems": [
    "C22_limits",
    "C22_limits_irrelevant",
    "C22_length"
   ],
   "note": "Proved, including the joint-vector lengths numpy broadcasting lets through."
  },
  {
   "property": "C23",
   "status": "proved",
   "theorems": [
    "C23_aux_action",
    "C23_aux_inverse",
    "C23_fwdkin_aux"
   ],
   "note": "Proved."
  },
  {
   "property": "C24",
   "status": "proved",
   "theorems": [
    "C24_jacobian_derivative"
   ],
   "note": "Proved for every differentiable joint motion of robots with rotary and prismatic joints."
  },
  {
   "property": "C25",
   "status": "partial",
   "theorems": [
    "C25_columns",
    "C25_columns_mobile",
    "C25_one_column_per_joint_refuted",
    "C25_trailing_mobile_refuted",
    "C25_type2_column_refuted"
   ],
   "note": "Proved for robots without type-3 joints and an exact column count for all type sequences. The documented 6xN shape is false for mobile robots: refuted (column dropped, IndexError for a trailing type-3 joint, zero column for a lone type-2 joint)."
  },
  {
   "property": "C26",
   "status": "proved",
   "theorems": [
    "C26_whole_turns"
   ],
   "note": "Proved."
  },
  {
   "property": "C27",
   "status": "partial",
   "theorems": [
    "C27_subproblem0",
    "C27_unique",
    "C27_rejects",
    "C27_rejects_refuted",
    "C27_zero_refuted"
   ],
   "note": "Existence, range, uniqueness and the rejection of vectors with positive component along k are proved. Rejection is false for a negative component (the assertions lack abs) and a zero vector gives NaN: refuted."
  },
  {
   "property": "C28",
   "status": "proved",
   "theorems": [
    "C28_subproblem1_solves",
    "C28_subproblem1_least_squares",
    "C28_subproblem1_on_axis",
    "C28_subproblem1_short",
    "C28_subproblem1_total"
   ],
   "note": "Proved for every non-zero axis: exact (within sqrt(eps) in the shortcut), least squares otherwise, AssertionError exactly as described, no other failure."
  },
  {
   "property": "C29",
   "status": "partial",
   "theorems": [
    "C29_subproblem2_sound",
    "C29_branches",
    "C29_touching_refuted",
    "C29_touching_raises_refuted"
   ],
   "note": "Proved for crossing circles (discriminant >= eps). False in the touching branch, which passes its arguments in the wrong order: refuted by a wrong answer and by an AssertionError."
  },
  {
   "property": "C30",
   "status": "partial",
   "theorems": [
    "C30_subproblem2_complete",
    "C30_gap_of_solution",
    "C30_subproblem2_empty",
    "C30_parallel_refuted",
    "C30_touching_refuted"
   ],
   "note": "Proved for crossing circles and for empty results with non-parallel axes. False for parallel axes (always empty) and touching circles: refuted."
  },
  {
   "property": "C31",
   "status": "proved",
   "theorems": [
    "C31_subproblem3_sound",
    "C31_subproblem3_count"
   ],
   "note": "Proved for all inputs: within |pp| sqrt(eps), exact away from subproblem1's shortcut."
  },
  {
   "property": "C32",
   "status": "partial",
   "theorems": [
    "C32_subproblem3_complete",
    "C32_subproblem3_empty",
    "C32_subproblem3_raises",
    "C32_on_axis_refuted"
   ],
   "note": "Proved off the axis, and an empty result always means no solution. False on the axis: AssertionError exactly when every angle is a solution (refuted and characterised)."
  },
  {
   "property": "C33",
   "status": "partial",
   "theorems": [
    "C33_subproblem4_sound",
    "C33_subproblem4_complete",
    "C33_subproblem4_too_large",
    "C33_subproblem4_empty",
    "C33_subproblem4_nan",
    "C33_too_small_refuted",
    "C33_constant_refuted"
   ],
   "note": "Soundness, completeness for non-constant values and the empty result above the range are proved. Below the range, and for a constant value, the answer is [NaN, NaN]: refuted and characterised."
  },
  {
   "property": "C34",
   "status": "partial",
   "theorems": [
    "C34_sound",
    "C34_closest",
    "C34_none",
    "C34_total",
    "C34_found",
    "C34_far_refuted",
    "C34_open_refuted"
   ],
   "note": "Soundness (whole turns, strictly inside the limits), closest choice, None exactly when none of the three turns fits, and totality are proved. False as a search over all turns: an angle two turns away, and an angle exactly on a limit, are not found (refuted)."
  },
  {
   "property": "C35",
   "status": "partial",
   "theorems": [
    "C35_no_last",
    "C35_sorted",
    "C35_sorted_pair",
    "C35_complete_refuted"
   ],
   "note": "Order, sub-list and no loss without last_joints are proved. With last_joints a valid candidate can be lost (refuted)."
  },
  {
   "property": "C36",
   "status": "proved",
   "theorems": [
    "C36_sound",
    "C36_exact"
   ],
   "note": "Proved for all OPW robots: an explicit error bound from the sqrt(eps) shortcuts, and exact equality when no shortcut is taken."
  },
  {
   "property": "C37",
   "status": "proved",
   "theorems": [
    "C37_limits"
   ],
   "note": "Proved for all OPW robots; fwdkin accepts every returned vector."
  },
  {
   "property": "C38",
   "status": "proved",
   "theorems": [
    "C38_robot6",
    "C38_ur"
   ],
   "note": "Proved."
  },
  {
   "property": "C39",
   "status": "partial",
   "theorems": [
    "C39_far",
    "C39_empty",
    "C39_last_never_empty",
    "C39_close",
    "C39_last_refuted",
    "C39_nan_refuted"
   ],
   "note": "Proved for limited robots without last_joints (too far, too close, on the far side). False with last_joints (ValueError; an empty list is never returned) and for some unreachable poses of a robot without limits (AssertionError): refuted and characterised."
  },
  {
   "property": "C40",
   "status": "partial",
   "theorems": [
    "C40_complete",
    "C40_singular",
    "C40_shoulder",
    "C40_regular",
    "C40_singular_refuted",
    "C40_shoulder_refuted"
   ],
   "note": "Proved in regular positions (with no assumption that the call succeeds). False at a wrist singularity (AssertionError) and with the wrist centre on the first axis (empty list): refuted and characterised."
  },
  {
   "property": "C41",
   "status": "proved",
   "theorems": [
    "C41_kinematics",
    "C41_second",
    "C41_only_P"
   ],
   "note": "The P matrix is changed; forward kinematics, the second call and all other fields are not."
  },
  {
   "property": "C42",
   "status": "proved",
   "theorems": [
    "C42_sound",
    "C42_exact"
   ],
   "note": "Proved for all UR robots, with fwdkin's limit check off (see C43): an explicit error bound from the sqrt(eps) shortcuts, and exact equality when no shortcut is taken."
  },
  {
   "property": "C43",
   "status": "partial",
   "theorems": [
    "C43_limits",
    "C43_refuted"
   ],
   "note": "Proved for every joint but the fifth. False for the fifth joint, which is never normalised: refuted; fwdkin accepts a returned vector exactly when its fifth joint lies inside its limits."
  },
  {
   "property": "C44",
   "status": "partial",
   "theorems": [
    "C44_one",
    "C44_list",
    "C44_distinct",
    "C44_once_refuted",
    "C44_last_raises",
    "C44_last_refuted",
    "C44_no_limits"
   ],
   "note": "Proved: for each configuration inside the limits exactly the whole-turn alternatives, each once. False when two inputs are alternatives of each other (repetitions), with last_joints when there is no alternative (ValueError), and without limits (TypeError): refuted and characterised."
  },
  {
   "property": "C45",
   "status": "partial",
   "theorems": [
    "C45_returned_inputs",
    "C45_refuted"
   ],
   "note": "False: the filter on lines 382-384 has no effect (refuted). An input is returned exactly when it is an alternative of another input (proved)."
  },
  {
   "property": "C46",
   "status": "partial",
   "theorems": [
    "C46_pose",
    "C46_limits",
    "C46_outside_refuted"
   ],
   "note": "The pose is the same for every source; the limits hold for sources inside the limits. False for sources outside them (refuted)."
  },
  {
   "property": "C47",
   "status": "partial",
   "theorems": [
    "C47_iterate",
    "C47_rotary",
    "C47_fine",
    "C47_half_turn_refuted",
    "C47_prismatic_refuted"
   ],
   "note": "Proved for rotary joints up to R2rot's misreading of half turns, which is characterised exactly and impossible for tolerances up to 1e-6. False at such a half turn and for prismatic joints, which are moved by multiples of 2 pi after convergence (refuted)."
  },
  {
   "property": "C48",
   "status": "proved",
   "theorems": [
    "C48_steps",
    "C48_no_steps"
   ],
   "note": "Proved."
  },
  {
   "property": "C49",
   "status": "partial",
   "theorems": [
    "C49_fwdkin",
    "C49_fwdkin_limits",
    "C49_loads",
    "C49_default_axis_refuted"
   ],
   "note": "Proved for chains of any length, including that loading succeeds. A missing axis element (URDF default (1,0,0)) raises ValueError: refuted."
  },
  {
   "property": "C50",
   "status": "proved",
   "theorems": [
    "C50_selects",
    "C50_one_candidate",
    "C50_no_root",
    "C50_unreachable_tip"
   ],
   "note": "Proved for all trees, with the outcome in every other case (no unique candidate, no root, unreachable tip)."
  },
  {
   "property": "C51",
   "status": "proved",
   "theorems": [
    "C51_limits",
    "C51_only_supported",
    "C51_rejects"
   ],
   "note": "Proved, including the exception for unsupported joints."
  },
  {
   "property": "C52",
   "status": "proved",
   "theorems": [
    "C52_energy",
    "C52_symmetric",
    "C52_light"
   ],
   "note": "Proved; energy is that of an arbitrary set of point masses described by the inertial element."
  },
  {
   "property": "C53",
   "status": "partial",
   "theorems": [
    "C53_first",
    "C53_own_partial",
    "C53_refuted"
   ],
   "note": "False: the entry joint_info[i] is read instead of joint_info[joint_numbers[i]] (refuted). Proved for chains numbered 0, 1, 2, ...; in general the first entries are read (proved)."
  },
  {
   "property": "C54",
   "status": "partial",
   "theorems": [
    "C54_iff",
    "C54_wellformed",
    "C54_rejects",
    "C54_refuted",
    "C54_null_refuted",
    "C54_axes",
    "C54_null_lists"
   ],
   "note": "The documents that load, and as what, are characterised exactly; whatever loads has all required entries. False for the first joint number (never checked), negative chain numbers and null numbers (NaN): refuted."
  },
  {
   "property": "C55",
   "status": "proved",
   "theorems": [
    "C55_iff",
    "C55_motion",
    "C55_errors"
   ],
   "note": "Proved, including the effect on the robot's motion."
  },
  {
   "property": "C56",
   "status": "proved",
   "theorems": [
    "C56_roundtrip",
    "C56_size",
    "C56_back",
    "C56_order"
   ],
   "note": "Proved for arrays over any type."
  },
  {
   "property": "C57",
   "status": "proved",
   "theorems": [
    "C57_roundtrip",
    "C57_stamped_identity",
    "C57_message",
    "C57_lost_names",
    "C57_always",
    "C57_unnamed"
   ],
   "note": "Proved, with the content of the messages; no transform gives a message with a NaN."
  },
  {
   "property": "C58",
   "status": "proved",
   "theorems": [
    "C58_reads",
    "C58_dispatch",
    "C58_others"
   ],
   "note": "Proved for objects with any further fields."
  },
  {
   "property": "C59",
   "status": "proved",
   "theorems": [
    "C59_lookup",
    "C59_raises",
    "C59_tree",
    "C59_compose",
    "C59_inverse"
   ],
   "note": "Proved, including composition and inversion of lookups for a listener answering from a tree of frames."
  },
  {
   "property": "C60",
   "status": "proved",
   "theorems": [
    "C60_scene_graph",
    "C60_environment"
   ],
   "note": "Proved for robots with any number of joints, with the environment's world joint included. Assumes the library's AngleAxisd constructor reproduces rotation matrices."
  },
  {
   "property": "C61",
   "status": "proved",
   "theorems": [
    "C61_iff",
    "C61_serial",
    "C61_joints",
    "C61_environment",
    "C61_environment_iff",
    "C61_needs_world",
    "C61_errors"
   ],
   "note": "Proved, with the exact condition for a scene graph and an environment to exist. Without the world link the environment is always refused (proved)."
  },
  {
   "property": "C62",
   "status": "partial",
   "theorems": [
    "C62_described",
    "C62_described_iff",
    "C62_urdf_axes",
    "C62_mirrored",
    "C62_refuted"
   ],
   "note": "Proved for the factory position when the last column of P is 0. False for the URDF axes (always AssertionError), for the mirrored axes (accepted, never described) and for an offset in the last column (not read): refuted and characterised."
  },
  {
   "property": "C63",
   "status": "proved",
   "theorems": [
    "C63_robot6_errors",
    "C63_robot6_regular",
    "C63_ur_errors",
    "C63_ur_regular"
   ],
   "note": "Proved."
  },
  {
   "property": "C64",
   "status": "partial",
   "theorems": [
    "C64_complete",
    "C64_regular",
    "C64_singular",
    "C64_shoulder",
    "C64_lost_refuted",
    "C64_singular_refuted"
   ],
   "note": "Proved in regular positions for limits within a half turn (with no assumption that the call succeeds). False when the fourth joint needs more than one added turn (solution lost), at wrist singularities (AssertionError) and with the wrist centre on the first axis: refuted and characterised."
  },
  {
   "property": "C65",
   "status": "proved",
   "theorems": [
    "C65_tracking",
    "C65_regular",
    "C65_ur_tracking",
    "C65_ur_regular"
   ],
   "note": "Proved for all joints, including that the call succeeds in regular positions."
  },
  {
   "property": "C66",
   "status": "partial",
   "theorems": [
    "C66_far",
    "C66_close",
    "C66_last_refuted",
    "C66_aligned_refuted"
   ],
   "note": "Proved too far (whatever is returned is empty), too close and on the far side. False with last_joints (ValueError), with an aligned wrist (AssertionError) and without limits (AssertionError): refuted and characterised."
  },
  {
   "property": "C67",
   "status": "partial",
   "theorems": [
    "C67_returns",
    "C67_single_joint",
    "C67_refuted",
    "C67_seed_length"
   ],
   "note": "Proved for two or more joints. False for one joint: always TypeError (refuted)."
  },
  {
   "property": "C68",
   "status": "partial",
   "theorems": [
    "C68_bodies",
    "C68_offset_refuted",
    "C68_frame_refuted",
    "C68_loaded"
   ],
   "note": "Proved when every link has an inertial element and fixed joints do not displace their child; in general the loaded matrices are characterised exactly. False behind a displaced fixed joint and for a link followed by a bare frame, whose mass is lost: refuted."
  },
  {
   "property": "C69",
   "status": "partial",
   "theorems": [
    "C69_terminates",
    "C69_cycle_refuted"
   ],
   "note": "Proved for acyclic link graphs. False if some leaf hangs on a cycle (get_chain walks for ever): refuted."
  },
  {
   "property": "C70",
   "status": "partial",
   "theorems": [
    "C70_rigid_iff",
    "C70_lookup_iff",
    "C70_direction_refuted"
   ],
   "note": "False: quaternions are not normalised (refuted). Proved: exactly the unit quaternions, and those without vector part, give rigid transforms."
  },
  {
   "property": "C71",
   "status": "proved",
   "theorems": [
    "C71_fwdkin",
    "C71_limits"
   ],
   "note": "Proved."
  },
  {
   "property": "C72",
   "status": "partial",
   "theorems": [
    "C72_described",
    "C72_upwards",
    "C72_upwards_none",
    "C72_refuted"
   ],
   "note": "Proved for robots outstretched along x. False for robots pointing upwards: accepted, but with the required flange no parameters describe them; the parameters fit a flange turned by a quarter turn (refuted and characterised)."
  },
  {
   "property": "C73",
   "status": "partial",
   "theorems": [
    "C73_solver",
    "C73_unknown",
    "C73_unsuitable",
    "C73_override",
    "C73_string",
    "C73_string_refuted"
   ],
   "note": "Proved for the four solvers and for overrides given as a pair. False for an override in the documented form, a string: always ValueError or TypeError (refuted)."
  },
  {
   "property": "C74",
   "status": "partial",
   "theorems": [
    "C74_opw",
    "C74_ur",
    "C74_ur_tool_refuted"
   ],
   "note": "Proved for OPWInvKin, and for URInvKin exactly when the tool moves nothing. False for URInvKin with a tool: the parameters lead to the flange, the configured tip is the tool (refuted)."
  },
  {
   "property": "C75",
   "status": "proved",
   "theorems": [
    "C75_fwdkin",
    "C75_relative",
    "C75_jacobian",
    "C75_invkin",
    "C75_table"
   ],
   "note": "Proved, relative to the stated contract of the library (link poses, velocity Jacobian, sound solver); tables of link poses are shown to exist."
  },
  {
   "property": "C76",
   "status": "proved",
   "theorems": [
    "C76_rounding",
    "C76_errors",
    "C76_reals",
    "C76_binary64",
    "C76_ex_rep",
    "C76_ex_run"
   ],
   "note": "Proved for every arithmetic with the stated error bounds and, as an instance, for IEEE binary64 (Flocq); over the reals the same program text is the exact model. The bound assumes the result is finite (no overflow)."
  },
  {
   "property": "C77",
   "status": "proved",
   "theorems": [
    "C77_rounding",
    "C77_binary64"
   ],
   "note": "Proved for lists of any length."
  },
  {
   "property": "C78",
   "status": "proved",
   "theorems": [
    "C78_nearly_unit_axes",
    "C78_linear"
   ],
   "note": "Proved."
  },
  {
   "property": "C79",
   "status": "partial",
   "theorems": [
    "C79_refuted",
    "C79_coordinate_axis",
    "C79_reals0",
    "C79_reals"
   ],
   "note": "False: p=(1,0,0), q=(0,1,0), k=(1,1,0) raises AssertionError in binary64 for every summation order (refuted). Proved for the coordinate axes; C89 bounds the error of every answer. Over the reals the same program text is the exact model (proved)."
  },
  {
   "property": "C80",
   "status": "partial",
   "theorems": [
    "C80_nan",
    "C80_refuted",
    "C80_reals",
    "C80_unit",
    "C80_nan_only"
   ],
   "note": "False: slerp of (1,0,1,1) with itself is NaN (refuted). Proved: NaN results exactly when rounding makes the dot product of the normalised quaternions exceed 1; otherwise, for entries up to 2^400 and not all tiny, the result is finite and its squared length is within 14 * 2^-53 of 1. Over the reals the same program text is the exact model (proved)."
  },
  {
   "property": "C81",
   "status": "partial",
   "theorems": [
    "C81_refuted",
    "C81_limits",
    "C81_turns",
    "C81_complete",
    "C81_reals"
   ],
   "note": "False: an alternative can exceed a limit by a rounding error (refuted). Proved: by at most 8 * 2^-53 * (|theta| + |limit|); every alternative is theta plus n whole turns up to 2^-53 * (|theta| + 24 |n|), and every whole-turn alternative that keeps a margin of 2^-52 * (|theta| + |limit|) is listed. Over the reals the same program text is the exact model (proved)."
  },
  {
   "property": "C82",
   "status": "partial",
   "theorems": [
    "C82_refuted",
    "C82_inside",
    "C82_outside",
    "C82_residual",
    "C82_coordinate_axis",
    "C82_reals"
   ],
   "note": "False: the stretched arm 0.5 + 1.1 = 1.6 gets no solution (refuted). Proved: with a margin of 2^-40 M^2 on both sides the answer is not the empty list, and out of reach by that margin it is; every angle returned reaches the distance up to 2^-24 M^2 (squares), unless a vector is closer to the axis than 2^-20 M; for coordinate axes there is always an answer (no AssertionError). M is the size of the inputs. Over the reals the same program text is the exact model (proved)."
  },
  {
   "property": "C83",
   "status": "partial",
   "theorems": [
    "C83_refuted",
    "C83_reals"
   ],
   "note": "False: for k proportional to (0,1,5) the axis is NaN (refuted), given the values of sin and cos at the binary64 number pi. Over the reals the same program text is the exact model (proved)."
  },
  {
   "property": "C84",
   "status": "proved",
   "theorems": [
    "C84_rejects",
    "C84_size",
    "C84_accepts_only"
   ],
   "note": "Proved."
  },
  {
   "property": "C85",
   "status": "proved",
   "theorems": [
    "C85_redundant",
    "C85_group",
    "C85_other_names"
   ],
   "note": "Proved, relative to the stated contract of the library (getRedundantSolutions, the kinematic group of a chain)."
  },
  {
   "property": "C86",
   "status": "proved",
   "theorems": [
    "C86_rounding",
    "C86_mobile",
    "C86_errors",
    "C86_reals",
    "C86_binary64"
   ],
   "note": "Proved for chains of any length, all summation orders of b_dots and any math library whose sin and cos are within 2^-52; results must be finite."
  },
  {
   "property": "C87",
   "status": "proved",
   "theorems": [
    "C87_limits",
    "C87_total",
    "C87_list",
    "C87_reals",
    "C87_binary64",
    "C87_whole_turns",
    "C87_nearest"
   ],
   "note": "Proved. n_diff is an integer in the model (the same below 2^53)."
  },
  {
   "property": "C88",
   "status": "proved",
   "theorems": [
    "C88_points",
    "C88_rotation",
    "C88_near",
    "C88_normalised"
   ],
   "note": "Proved. The binary64 part is for robots whose joints all turn."
  },
  {
   "property": "C89",
   "status": "proved",
   "theorems": [
    "C89_direction",
    "C89_solves",
    "C89_error"
   ],
   "note": "Proved for any math library whose arctan2 (first quadrant) and arccos are within 2^-50 and all summation orders of b_dots."
  },
  {
   "property": "C90",
   "status": "proved",
   "theorems": [
    "C90_accuracy",
    "C90_roundtrip"
   ],
   "note": "Assumes libm_ok (sin, cos within 2^-52) for the round trip and libm_atan2_ok (arctan2 within 2^-50 in the upper half plane); sines between the threshold 1e-6 and 2^-19 are not covered."
  },
  {
   "property": "C91",
   "status": "proved",
   "theorems": [
    "C91_converges",
    "C91_default",
    "C91_near_solution"
   ],
   "note": "np.linalg.pinv enters by the contract right_inverse on the Jacobians met (it solves J d = b with l1 norm of d at most c times the size of b); robots with one joint are excluded (they always raise, C67). Real arithmetic."
  },
  {
   "property": "C92",
   "status": "proved",
   "theorems": [
    "C92_mul",
    "C92_inv",
    "C92_identity",
    "C92_fwdkin",
    "C92_constructor",
    "C92_aux"
   ],
   "note": "Proved on a memory model (ModelMem.v) in which arrays are lists of addresses; joint limits and names are values."
  },
  {
   "property": "C93",
   "status": "proved",
   "theorems": [
    "C93_call",
    "C93_others",
    "C93_shared",
    "C93_other_axes"
   ],
   "note": "Proved, including the counterexample for robots that share only P (C93_other_axes)."
  },
  {
   "property": "C94",
   "status": "proved",
   "theorems": [
    "C94_rotation",
    "C94_reach",
    "C94_unreachable",
    "C94_transform",
    "C94_zero"
   ],
   "note": "Proved; the numbers drawn are parameters in [0,1)."
  },
  {
   "property": "C95",
   "status": "proved",
   "theorems": [
    "C95_frames",
    "C95_quotes"
   ],
   "note": "Proved, including the ambiguity with quotes (C95_quotes); numpy's array texts are parameters."
  },
  {
   "property": "C96",
   "status": "partial",
   "theorems": [
    "C96_urdf_refused",
    "C96_urdf_fwdkin",
    "C96_urdf_built",
    "C96_urdf_invkin",
    "C96_rr_built",
    "C96_refuted"
   ],
   "note": "False for URDF: the loader sets no acceleration limits and robot_to_scene_graph indexes them, so every robot with a moving joint loaded from URDF raises TypeError (refuted and characterised). Proved: once joint_acc_limit is assigned the robot is accepted whenever the document states all limits and names do not collide, and TesseractRobot.fwdkin is the URDF's kinematics; the inverse kinematics part; Robot Raconteur documents are accepted at once."
  },
  {
   "property": "C97",
   "status": "proved",
   "theorems": [
    "C97_accuracy",
    "C97_real"
   ],
   "note": "Proved for every rotation and every entry error up to 1/64 (C97_accuracy); C97_real ties the program to the model over the reals."
  },
  {
   "property": "C98",
   "status": "proved",
   "theorems": [
    "C98_message",
    "C98_accuracy",
    "C98_roundtrip",
    "C98_back",
    "C98_real"
   ],
   "note": "Proved: accuracy, R2q then q2R, and q2R then R2q up to sign."
  },
  {
   "property": "C99",
   "status": "proved",
   "theorems": [
    "C99_product",
    "C99_homomorphism",
    "C99_complement",
    "C99_rot2q",
    "C99_rot",
    "C99_real"
   ],
   "note": "Proved; sin and cos are parameters within 2^-52. C99_real ties the programs to the model over the reals."
  },
  {
   "property": "C100",
   "status": "partial",
   "theorems": [
    "C100_small_partial",
    "C100_large_partial",
    "C100_law",
    "C100_growth",
    "C100_fixed",
    "C100_drift_refuted"
   ],
   "note": "False between 90 and 120 degrees: R2q after q2R multiplies the error of the squared norm by |v|^2/(1-|v|^2) (C100_law, C100_growth), and in binary64 the rotation by 118 degrees stored to the last bit becomes the one by 62 degrees in 45 conversions (C100_drift_refuted). Proved: rotations up to 86 degrees and from 122 degrees on keep their value up to n 2^-34 (C100_small_partial, C100_large_partial); not decided: 86 to 90 and 120 to 122 degrees."
  },
  {
   "property": "C101",
   "status": "partial",
   "theorems": [
    "C101_real",
    "C101_rpy2R",
    "C101_R2rpy",
    "C101_roundtrip_partial",
    "C101_back",
    "C101_assert",
    "C101_gimbal_refuted"
   ],
   "note": "False near the vertical: with cos(pitch) = 2^-48 a matrix stored within 2^-52 gives angles whose matrix is off by 1/20 and no exception (C101_gimbal_refuted). Proved: the error is divided by cos(pitch) for roll and yaw and not amplified for pitch (C101_R2rpy, C101_roundtrip_partial, C101_back), rpy2R is always accurate (C101_rpy2R), and AssertionError is raised where cos(pitch) + 2e <= 9 * 2^-52 (C101_assert). arctan2 is a parameter that returns the direction of its arguments up to 2^-50."
  },
  {
   "property": "C102",
   "status": "partial",
   "theorems": [
    "C102_relative_partial",
    "C102_located",
    "C102_package_refuted",
    "C102_sources",
    "C102_failures"
   ],
   "note": "The claim about the package is false: an absolute name ignores the package and a name with .. leaves it (C102_package_refuted); a relative name is looked up from the package directory and stays inside it without .. (C102_relative_partial). Sources and failures are proved as stated. rospkg, the file system, xacro, the URDF parser and the parameter server are parameters; places are walks in a tree without symbolic links."
  },
  {
   "property": "C103",
   "status": "partial",
   "theorems": [
    "C103_reached",
    "C103_reals",
    "C103_fine",
    "C103_result",
    "C103_half_turn_refuted"
   ],
   "note": "False for tolerances above 9e-7: half a turn about an axis near z whose x part is zero is reported as reached, for every pseudo-inverse (C103_half_turn_refuted). C103_reached bounds the last iterate for tolerances up to 1/2, with the misread half turn as an explicit alternative; C103_fine (tol <= 9e-7) bounds the movement of every tool point, and C103_result the same for the returned joints when all joints turn; C103_reals: over the reals the program is the model of C47. The pseudo-inverse is any function that may raise. Convergence itself is not claimed."
  },
  {
   "property": "C104",
   "status": "partial",
   "theorems": [
    "C104_rotation",
    "C104_back",
    "C104_axis",
    "C104_nan_refuted",
    "C104_axis_refuted",
    "C104_reals"
   ],
   "note": "False as it stands: for a scalar part just above 1, which the product of a stored quaternion with its own complement has in every order of summation, the angle is not a number (C104_nan_refuted); for a scalar part -1 and a small vector part the axis is not finite or longer than 10^6 (C104_axis_refuted). C104_rotation and C104_back hold for scalar parts at most 1 in size with q0 >= 0 or a vector part of length at least 2^-20, C104_axis for the latter; C104_reals: over the reals the program is the model of C11."
  },
  {
   "property": "C105",
   "status": "partial",
   "theorems": [
    "C105_shared",
    "C105_jacobian",
    "C105_invkin",
    "C105_table",
    "C105_group",
    "C105_wrap",
    "C105_arguments",
    "C105_add_iff",
    "C105_plain_names",
    "C105_clash_refuted"
   ],
   "note": "False as it stands only in the last sentence: the joint left_elbow of robot arm and the joint elbow of robot arm_left get the same name, so the second robot is refused (C105_clash_refuted). All the rest is proved for any number of robots; robots with different names without underscores, none called world, can always be put together (C105_plain_names), and C105_add_iff says exactly when a robot is accepted. The group asked of the library is a parameter: a chain group of that name with links hanging on the chain tip."
  },
  {
   "property": "C106",
   "status": "partial",
   "theorems": [
    "C106_residual",
    "C106_complete",
    "C106_above",
    "C106_below",
    "C106_reals",
    "C106_lost_refuted",
    "C106_nan_refuted"
   ],
   "note": "False as it stands in two ways. A d below the reach is answered with two entries that are not numbers in place of an empty list (C106_below, C106_nan_refuted; the same as C33). At the upper end of the reach, where the rate is 0, rounding can make the quotient exceed 1 and an exact solution is lost in every order of summation (C106_lost_refuted); C106_complete is the true version with a rate. C106_residual bounds the displacement error of every finite angle, C106_above gives the empty list above the reach, C106_reals ties the program to the exact model of C33."
  },
  {
   "property": "C107",
   "status": "partial",
   "theorems": [
    "C107_residual",
    "C107_two",
    "C107_sides",
    "C107_complete",
    "C107_axes",
    "C107_none",
    "C107_error",
    "C107_reals",
    "C107_touching_refuted"
   ],
   "note": "False as it stands: where the two cones only touch, the branch for one solution calls subproblem1 with its arguments in the wrong order and the call raises in every order of summation and for every math library (C107_touching_refuted; the same as C29). C107_residual bounds the error of every returned pair. C107_sides: the two pairs lie on opposite sides of the plane of the axes. C107_complete finds a solution where the cones cross, or raises AssertionError (the assertion of subproblem0 that its vectors are perpendicular to the axis, which rounding can trip); about distinct coordinate axes it is always found (C107_axes). C107_none gives the empty list where the cones miss each other, C107_error says AssertionError is the only exception, C107_reals ties the program to the exact model of C29."
  },
  {
   "property": "C108",
   "status": "proved",
   "theorems": [
    "C108_six",
    "C108_limits",
    "C108_reaches",
    "C108_reals"
   ],
   "note": "C108_reaches is the bound, C108_limits the limits in binary64, C108_six the six entries for every arithmetic. C108_ex runs the whole program by computation for each of the six summation orders, on a robot with a tool and limits and a math library that is correctly rounded away from the angles the run asks for; the vector it returns meets all hypotheses of C108_reaches. C108_reals ties the program to the exact model of C36-C41: run over the reals, it returns what that model returns, whenever that is a non-empty list and the two links of the elbow are not along the elbow axis. Which solutions are found in binary64 is C111 (for the reals C40)."
  },
  {
   "property": "C109",
   "status": "proved",
   "theorems": [
    "C109_six",
    "C109_limits",
    "C109_reaches",
    "C109_fifth_refuted",
    "C109_reals"
   ],
   "note": "C109_reaches is the bound, C109_limits the limits in binary64 for every joint but the fifth, C109_six the six entries for every arithmetic. C109_ex runs the whole program by computation for each of the six summation orders, on a robot with a tool and limits; the vector it returns meets all hypotheses of C109_reaches. C109_fifth_refuted: in that run the fifth joint lies above its upper limit, as in C43. C109_reals (PropUrR.v): over the reals a call that returns something returns the same in the program. Which solutions are found in binary64 is C112 (for the reals C64)."
  },
  {
   "property": "C110",
   "status": "proved",
   "theorems": [
    "C110_complete",
    "C110_coordinate_axis",
    "C110_stretched_refuted"
   ],
   "note": "C110_complete is the claim where the call returns, C110_coordinate_axis the same with the return guaranteed (the assertion of subproblem0 can fire on a rounded skew axis, C79). eta allows for an angle that reaches the distance only nearly, as the callers need it. reach_rate_ok proves that reach_rate is the derivative. C110_ex finds both angles of one elbow. C110_stretched_refuted is the failure at rate 0, by computation for each summation order."
  },
  {
   "property": "C111",
   "status": "proved",
   "theorems": [
    "C111_finds"
   ],
   "note": "C111_finds is the claim; C111_ex finds the solution of the robot of C108_ex for every summation order. The exact solution is one of the exact robot: the rounded link sums and the rounded pose without tool and base are part of the error. Left out: that the call returns (another branch of the search can meet an assertion of subproblem1 or subproblem2) and solutions near singularities, where C110_stretched_refuted and C107_touching_refuted show that solutions can be lost. With last_joints: C114."
  },
  {
   "property": "C112",
   "status": "proved",
   "theorems": [
    "C112_finds"
   ],
   "note": "C112_finds is the claim; C112_ex finds the solution of the robot of C109_ex for every summation order, with a fifth joint past its limits. The fourth joint is the difference of three angles, so it can be two turns away from the one asked for: the normaliser tries one, hence the condition on the limits of joints 2 and 3 (C64_lost_refuted has such a loss over the reals). Left out: that the call returns and solutions near singularities. With last_joints: C114."
  },
  {
   "property": "C113",
   "status": "proved",
   "theorems": [
    "C113_on_the_arc",
    "C113_arc"
   ],
   "note": "C113_on_the_arc is the claim; C113_arc says what the points of the specification are (unit length, angles t th and (1-t) th from the two ends, the ends themselves at t = 0 and t = 1). C113_ex is (3, 1, -2, 1) and (1, 2, 2, -7) half way, where the first quaternion changes sign. For quaternions so nearly orthogonal that rounding decides the sign, either sign may be taken, which is why the exact dot product is only bounded by -2^-47. When the computed cosine exceeds 1 the result is NaN (C80_nan_only)."
  },
  {
   "property": "C114",
   "status": "proved",
   "theorems": [
    "C114_tracks",
    "C114_ur_tracks"
   ],
   "note": "C114_tracks and C114_ur_tracks are the claim for the two programs; C114_ex and C114_ur_ex follow the robots of C111_ex and C112_ex from last_joints (1, -1, 1, -1, 1, 1) with a sorting function that reverses the candidates. Left out: that the call returns and solutions near singularities. The order of the list: C115."
  },
  {
   "property": "C115",
   "status": "proved",
   "theorems": [
    "C115_sorted",
    "C115_ur_sorted",
    "C115_first"
   ],
   "note": "C115_sorted and C115_ur_sorted are the order for the two programs; C115_first is the first vector, with C114. The fifth joint of ur_invkin is not held to the limits, so C115_ur_sorted asks that it is finite and at most 1024. C115_ex and C115_ur_ex are runs with two solutions that the sorting swaps; C115_first_ex follows the robot of C114_ex; in_order_sorts shows a sorting function that meets the contract. Left out: the first vector for ur_invkin, whose fifth joint can be whole turns away from last_joints (C114_ur_tracks)."
  },
  {
   "property": "C116",
   "status": "partial",
   "theorems": [
    "C116_fwdkin",
    "C116_accepts",
    "C116_back",
    "C116_ur_back",
    "C116_ur_accepts_refuted"
   ],
   "note": "C116_fwdkin needs no assumption that the result is finite (C76 does). C116_accepts is the limit check; C116_back and C116_ur_back compose with C108_reaches and C109_reaches and compare the stored numbers of the result with those of the requested pose. C116_ur_accepts_refuted is a run where fwdkin refuses the output of ur_invkin, whose fifth joint is not held to the limits (C109_fifth_refuted). C116_ex and C116_ur_ex take the runs of C108_ex and C109_ex back. Left out: poses near singularities, and the other direction (inverse kinematics of a computed pose), since stored_pose takes the position of the pose as exact."
  },
  {
   "property": "C117",
   "status": "partial",
   "theorems": [
    "C117_eq",
    "C117_isclose",
    "C117_self",
    "C117_special",
    "C117_special_isclose",
    "C117_inverse",
    "C117_inv_inv",
    "C117_cancel",
    "C117_trip",
    "C117_ur_trip",
    "C117_reals",
    "C117_far_refuted",
    "C117_nan_refuted"
   ],
   "note": "C117_eq, C117_isclose and C117_self describe the comparisons; C117_special and C117_special_isclose settle infinities and NaN; C117_reals shows that the model over the reals is the teq and tisclose of the other properties. C117_inverse, C117_inv_inv and C117_cancel are about inv; C117_trip and C117_ur_trip compose with C116. C117_far_refuted: a position of 3 * 2^40 for which T * T.inv() is not equal to the identity in any summation order; C117_nan_refuted: a Transform that differs from itself. The model follows np.isclose of current numpy for infinities and NaN."
  },
  {
   "property": "C118",
   "status": "partial",
   "theorems": [
    "C118_one",
    "C118_endless",
    "C118_list",
    "C118_total",
    "C118_reals",
    "C118_turns",
    "C118_limits",
    "C118_counted",
    "C118_complete",
    "C118_pose",
    "C118_solutions",
    "C118_accepts_refuted",
    "C118_nearest"
   ],
   "note": "C118_one, C118_list, C118_total and C118_endless hold over any arithmetic; C118_reals shows that the model over the reals is the equiv1 of the other properties. C118_counted, C118_turns, C118_limits, C118_complete, C118_pose, C118_solutions and C118_nearest are about binary64. C118_accepts_refuted: one joint with limits -10 and just below -4 + 2 pi at -4, whose only alternative fwdkin refuses. The order of the list without last_joints is not described."
  },
  {
   "property": "C119",
   "status": "proved",
   "theorems": [
    "C119_invhat",
    "C119_invhat_refuted",
    "C119_screw",
    "C119_screw_product",
    "C119_screw_sum",
    "C119_screw_inverse",
    "C119_invhat_near",
    "C119_wrench",
    "C119_twist",
    "C119_cross",
    "C119_self",
    "C119_self_refuted",
    "C119_jacobian",
    "C119_rate",
    "C119_reals"
   ],
   "note": "C119_invhat_refuted: an entry of 2^1023, for which invhat gives infinity. C119_self_refuted: with fused multiply-add hat(k) k is not zero for k = (0, 1/10, 1/3). C119_screw, C119_screw_product, C119_screw_sum and C119_screw_inverse are about values (signs of zeros are not described). C119_wrench, C119_twist and C119_rate are for finite results. C119_reals links the model over the reals to the screw_matrix and quatjacobian of C15 and C12."
  }
 ]
}