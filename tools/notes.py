NOTES = {
 "C01": "Proved for all vectors and matrices.",
 "C02": "Proved; also uniqueness and the conjugation law.",
 "C03": "Proved, including injectivity modulo 2 pi.",
 "C04": "Proved for every rotation matrix whose angle has sine >= 1e-6; R2rot never yields NaN on a rotation.",
 "C05": "Proved. C05_rot2q_R2rot_refuted records that the axis returned near the identity is a Python list, which rot2q rejects with AttributeError.",
 "C06": "False of the code: the second sign in the half-turn branch reads B[0,2] instead of B[1,2]. Refuted with k=(0,3/5,4/5); the exact set of half turns that work is characterised, and the case |k_x| > 1e-6 is proved.",
 "C07": "Proved.",
 "C08": "Proved.",
 "C09": "Proved for all rotation matrices through all four branches.",
 "C10": "Proved (for an array axis).",
 "C11": "False at q=(-1,0,0,0) (division by sin(pi)). Proved for every other unit quaternion: exact above the 1e-6 threshold, within 2e-6 below it.",
 "C12": "Proved for all differentiable curves.",
 "C13": "Proved, including the exact guard and rejection at gimbal lock.",
 "C14": "Proved in exact arithmetic. Sign independence needs the quaternions not to be orthogonal (two shortest paths).",
 "C15": "Proved.",
 "C16": "Proved; inverse laws assume a rotation part (shown necessary by an example).",
 "C17": "Proved for products of any length; also the frame names fwdkin returns (a tool erases the child name).",
 "C18": "The closeness characterisation, reflexivity and the bound on rotation entries are proved. Symmetry and transitivity of ==, and 'isclose(tol) bounds the error by tol', are false: refuted (rtol 1e-5 stays active).",
 "C19": "Proved for all shapes and contents.",
 "C20": "Proved for any number of joints, including mobile types in fwdkin.",
 "C21": "Proved.",
 "C22": "Proved, including the joint-vector lengths numpy broadcasting lets through.",
 "C23": "Proved.",
 "C24": "Proved for every differentiable joint motion of robots with rotary and prismatic joints.",
 "C25": "Proved for robots without type-3 joints and an exact column count for all type sequences. The documented 6xN shape is false for mobile robots: refuted (column dropped, IndexError for a trailing type-3 joint, zero column for a lone type-2 joint).",
 "C26": "Proved.",
 "C27": "Existence, range, uniqueness and the rejection of vectors with positive component along k are proved. Rejection is false for a negative component (the assertions lack abs) and a zero vector gives NaN: refuted.",
 "C28": "Proved for every non-zero axis: exact (within sqrt(eps) in the shortcut), least squares otherwise, AssertionError exactly as described, no other failure.",
 "C29": "Proved for crossing circles (discriminant >= eps). False in the touching branch, which passes its arguments in the wrong order: refuted by a wrong answer and by an AssertionError.",
 "C30": "Proved for crossing circles and for empty results with non-parallel axes. False for parallel axes (always empty) and touching circles: refuted.",
 "C31": "Proved for all inputs: within |pp| sqrt(eps), exact away from subproblem1's shortcut.",
 "C32": "Proved off the axis, and an empty result always means no solution. False on the axis: AssertionError exactly when every angle is a solution (refuted and characterised).",
 "C33": "Soundness, completeness for non-constant values and the empty result above the range are proved. Below the range, and for a constant value, the answer is [NaN, NaN]: refuted and characterised.",
 "C34": "Soundness (whole turns, strictly inside the limits), closest choice, None exactly when none of the three turns fits, and totality are proved. False as a search over all turns: an angle two turns away, and an angle exactly on a limit, are not found (refuted).",
 "C35": "Order, sub-list and no loss without last_joints are proved. With last_joints a valid candidate can be lost (refuted).",
 "C41": "The P matrix is changed; forward kinematics, the second call and all other fields are not.",
 "C36": "Proved for all OPW robots: an explicit error bound from the sqrt(eps) shortcuts, and exact equality when no shortcut is taken.",
 "C37": "Proved for all OPW robots; fwdkin accepts every returned vector.",
 "C38": "Proved.",
 "C39": "Proved for limited robots without last_joints (too far, too close, on the far side). False with last_joints (ValueError; an empty list is never returned) and for some unreachable poses of a robot without limits (AssertionError): refuted and characterised.",
 "C40": "Proved in regular positions (with no assumption that the call succeeds). False at a wrist singularity (AssertionError) and with the wrist centre on the first axis (empty list): refuted and characterised.",
 "C42": "Proved for all UR robots, with fwdkin's limit check off (see C43): an explicit error bound from the sqrt(eps) shortcuts, and exact equality when no shortcut is taken.",
 "C43": "Proved for every joint but the fifth. False for the fifth joint, which is never normalised: refuted; fwdkin accepts a returned vector exactly when its fifth joint lies inside its limits.",
 "C64": "Proved in regular positions for limits within a half turn (with no assumption that the call succeeds). False when the fourth joint needs more than one added turn (solution lost), at wrist singularities (AssertionError) and with the wrist centre on the first axis: refuted and characterised.",
 "C66": "Proved too far (whatever is returned is empty), too close and on the far side. False with last_joints (ValueError), with an aligned wrist (AssertionError) and without limits (AssertionError): refuted and characterised.",
 "C63": "Proved.",
 "C44": "Proved: for each configuration inside the limits exactly the whole-turn alternatives, each once. False when two inputs are alternatives of each other (repetitions), with last_joints when there is no alternative (ValueError), and without limits (TypeError): refuted and characterised.",
 "C45": "False: the filter on lines 382-384 has no effect (refuted). An input is returned exactly when it is an alternative of another input (proved).",
 "C46": "The pose is the same for every source; the limits hold for sources inside the limits. False for sources outside them (refuted).",
 "C47": "Proved for rotary joints up to R2rot's misreading of half turns, which is characterised exactly and impossible for tolerances up to 1e-6. False at such a half turn and for prismatic joints, which are moved by multiples of 2 pi after convergence (refuted).",
 "C48": "Proved.",
 "C67": "Proved for two or more joints. False for one joint: always TypeError (refuted).",
 "C49": "Proved for chains of any length, including that loading succeeds. A missing axis element (URDF default (1,0,0)) raises ValueError: refuted.",
 "C50": "Proved for all trees, with the outcome in every other case (no unique candidate, no root, unreachable tip).",
 "C51": "Proved, including the exception for unsupported joints.",
 "C52": "Proved; energy is that of an arbitrary set of point masses described by the inertial element.",
 "C68": "Proved when every link has an inertial element and fixed joints do not displace their child; in general the loaded matrices are characterised exactly. False behind a displaced fixed joint and for a link followed by a bare frame, whose mass is lost: refuted.",
 "C69": "Proved for acyclic link graphs. False if some leaf hangs on a cycle (get_chain walks for ever): refuted.",
 "C53": "False: the entry joint_info[i] is read instead of joint_info[joint_numbers[i]] (refuted). Proved for chains numbered 0, 1, 2, ...; in general the first entries are read (proved).",
 "C54": "The documents that load, and as what, are characterised exactly; whatever loads has all required entries. False for the first joint number (never checked), negative chain numbers and null numbers (NaN): refuted.",
 "C55": "Proved, including the effect on the robot's motion.",
 "C56": "Proved for arrays over any type.",
 "C57": "Proved, with the content of the messages; no transform gives a message with a NaN.",
 "C58": "Proved for objects with any further fields.",
 "C59": "Proved, including composition and inversion of lookups for a listener answering from a tree of frames.",
 "C70": "False: quaternions are not normalised (refuted). Proved: exactly the unit quaternions, and those without vector part, give rigid transforms.",
 "C71": "Proved.",
 "C60": "Proved for robots with any number of joints, with the environment's world joint included. Assumes the library's AngleAxisd constructor reproduces rotation matrices.",
 "C61": "Proved, with the exact condition for a scene graph and an environment to exist. Without the world link the environment is always refused (proved).",
 "C62": "Proved for the factory position when the last column of P is 0. False for the URDF axes (always AssertionError), for the mirrored axes (accepted, never described) and for an offset in the last column (not read): refuted and characterised.",
 "C72": "Proved for robots outstretched along x. False for robots pointing upwards: accepted, but with the required flange no parameters describe them; the parameters fit a flange turned by a quarter turn (refuted and characterised).",
 "C73": "Proved for the four solvers and for overrides given as a pair. False for an override in the documented form, a string: always ValueError or TypeError (refuted).",
 "C74": "Proved for OPWInvKin, and for URInvKin exactly when the tool moves nothing. False for URInvKin with a tool: the parameters lead to the flange, the configured tip is the tool (refuted).",
 "C75": "Proved, relative to the stated contract of the library (link poses, velocity Jacobian, sound solver); tables of link poses are shown to exist.",
 "C65": "Proved for all joints, including that the call succeeds in regular positions.",
 "C76": "Proved for every arithmetic with the stated error bounds and, as an instance, for IEEE binary64 (Flocq); over the reals the same program text is the exact model. The bound assumes the result is finite (no overflow).",
 "C77": "Proved for lists of any length.",
 "C78": "Proved.",
 "C79": "False: p=(1,0,0), q=(0,1,0), k=(1,1,0) raises AssertionError in binary64 for every summation order (refuted). Proved for the coordinate axes; C89 bounds the error of every answer. Over the reals the same program text is the exact model (proved).",
 "C80": "False: slerp of (1,0,1,1) with itself is NaN (refuted). Proved: NaN results exactly when rounding makes the dot product of the normalised quaternions exceed 1; otherwise, for entries up to 2^400 and not all tiny, the result is finite and its squared length is within 14 * 2^-53 of 1. Over the reals the same program text is the exact model (proved).",
 "C81": "False: an alternative can exceed a limit by a rounding error (refuted). Proved: by at most 8 * 2^-53 * (|theta| + |limit|); every alternative is theta plus n whole turns up to 2^-53 * (|theta| + 24 |n|), and every whole-turn alternative that keeps a margin of 2^-52 * (|theta| + |limit|) is listed. Over the reals the same program text is the exact model (proved).",
 "C82": "False: the stretched arm 0.5 + 1.1 = 1.6 gets no solution (refuted). Proved: with a margin of 2^-40 M^2 on both sides the answer is not the empty list, and out of reach by that margin it is; every angle returned reaches the distance up to 2^-24 M^2 (squares), unless a vector is closer to the axis than 2^-20 M; for coordinate axes there is always an answer (no AssertionError). M is the size of the inputs. Over the reals the same program text is the exact model (proved).",
 "C83": "False: for k proportional to (0,1,5) the axis is NaN (refuted), given the values of sin and cos at the binary64 number pi. Over the reals the same program text is the exact model (proved).",
 "C84": "Proved.",
 "C85": "Proved, relative to the stated contract of the library (getRedundantSolutions, the kinematic group of a chain).",
 "C86": "Proved for chains of any length, all summation orders of b_dots and any math library whose sin and cos are within 2^-52; results must be finite.",
 "C87": "Proved. n_diff is an integer in the model (the same below 2^53).",
 "C89": "Proved for any math library whose arctan2 (first quadrant) and arccos are within 2^-50 and all summation orders of b_dots.",
 "C90": "Assumes libm_ok (sin, cos within 2^-52) for the round trip and libm_atan2_ok (arctan2 within 2^-50 in the upper half plane); sines between the threshold 1e-6 and 2^-19 are not covered.",
 "C96": "False for URDF: the loader sets no acceleration limits and robot_to_scene_graph indexes them, so every robot with a moving joint loaded from URDF raises TypeError (refuted and characterised). Proved: once joint_acc_limit is assigned the robot is accepted whenever the document states all limits and names do not collide, and TesseractRobot.fwdkin is the URDF's kinematics; the inverse kinematics part; Robot Raconteur documents are accepted at once.",
 "C92": "Proved on a memory model (ModelMem.v) in which arrays are lists of addresses; joint limits and names are values.",
 "C97": "Proved for every rotation and every entry error up to 1/64 (C97_accuracy); C97_real ties the program to the model over the reals.",
 "C98": "Proved: accuracy, R2q then q2R, and q2R then R2q up to sign.",
 "C99": "Proved; sin and cos are parameters within 2^-52. C99_real ties the programs to the model over the reals.",
 "C100": "False between 90 and 120 degrees: R2q after q2R multiplies the error of the squared norm by |v|^2/(1-|v|^2) (C100_law, C100_growth), and in binary64 the rotation by 118 degrees stored to the last bit becomes the one by 62 degrees in 45 conversions (C100_drift_refuted). Proved: rotations up to 86 degrees and from 122 degrees on keep their value up to n 2^-34 (C100_small_partial, C100_large_partial); not decided: 86 to 90 and 120 to 122 degrees.",
 "C101": "False near the vertical: with cos(pitch) = 2^-48 a matrix stored within 2^-52 gives angles whose matrix is off by 1/20 and no exception (C101_gimbal_refuted). Proved: the error is divided by cos(pitch) for roll and yaw and not amplified for pitch (C101_R2rpy, C101_roundtrip_partial, C101_back), rpy2R is always accurate (C101_rpy2R), and AssertionError is raised where cos(pitch) + 2e <= 9 * 2^-52 (C101_assert). arctan2 is a parameter that returns the direction of its arguments up to 2^-50.",
 "C102": "The claim about the package is false: an absolute name ignores the package and a name with .. leaves it (C102_package_refuted); a relative name is looked up from the package directory and stays inside it without .. (C102_relative_partial). Sources and failures are proved as stated. rospkg, the file system, xacro, the URDF parser and the parameter server are parameters; places are walks in a tree without symbolic links.",
 "C103": "False for tolerances above 9e-7: half a turn about an axis near z whose x part is zero is reported as reached, for every pseudo-inverse (C103_half_turn_refuted). C103_reached bounds the last iterate for tolerances up to 1/2, with the misread half turn as an explicit alternative; C103_fine (tol <= 9e-7) bounds the movement of every tool point, and C103_result the same for the returned joints when all joints turn; C103_reals: over the reals the program is the model of C47. The pseudo-inverse is any function that may raise. Convergence itself is not claimed.",
 "C104": "False as it stands: for a scalar part just above 1, which the product of a stored quaternion with its own complement has in every order of summation, the angle is not a number (C104_nan_refuted); for a scalar part -1 and a small vector part the axis is not finite or longer than 10^6 (C104_axis_refuted). C104_rotation and C104_back hold for scalar parts at most 1 in size with q0 >= 0 or a vector part of length at least 2^-20, C104_axis for the latter; C104_reals: over the reals the program is the model of C11.",
 "C105": "False as it stands only in the last sentence: the joint left_elbow of robot arm and the joint elbow of robot arm_left get the same name, so the second robot is refused (C105_clash_refuted). All the rest is proved for any number of robots; robots with different names without underscores, none called world, can always be put together (C105_plain_names), and C105_add_iff says exactly when a robot is accepted. The group asked of the library is a parameter: a chain group of that name with links hanging on the chain tip.",
 "C106": 'False as it stands in two ways. A d below the reach is answered with two entries that are not numbers in place of an empty list (C106_below, C106_nan_refuted; the same as C33). At the upper end of the reach, where the rate is 0, rounding can make the quotient exceed 1 and an exact solution is lost in every order of summation (C106_lost_refuted); C106_complete is the true version with a rate. C106_residual bounds the displacement error of every finite angle, C106_above gives the empty list above the reach, C106_reals ties the program to the exact model of C33.',
 "C107": 'False as it stands: where the two cones only touch, the branch for one solution calls subproblem1 with its arguments in the wrong order and the call raises in every order of summation and for every math library (C107_touching_refuted; the same as C29). C107_residual bounds the error of every returned pair. C107_sides: the two pairs lie on opposite sides of the plane of the axes. C107_complete finds a solution where the cones cross, or raises AssertionError (the assertion of subproblem0 that its vectors are perpendicular to the axis, which rounding can trip); about distinct coordinate axes it is always found (C107_axes). C107_none gives the empty list where the cones miss each other, C107_error says AssertionError is the only exception, C107_reals ties the program to the exact model of C29.',
 "C108": 'C108_reaches is the bound, C108_limits the limits in binary64, C108_six the six entries for every arithmetic. C108_ex runs the whole program by computation for each of the six summation orders, on a robot with a tool and limits and a math library that is correctly rounded away from the angles the run asks for; the vector it returns meets all hypotheses of C108_reaches. C108_reals ties the program to the exact model of C36-C41: run over the reals, it returns what that model returns, whenever that is a non-empty list and the two links of the elbow are not along the elbow axis. Which solutions are found in binary64 is C111 (for the reals C40).',
 "C109": 'C109_reaches is the bound, C109_limits the limits in binary64 for every joint but the fifth, C109_six the six entries for every arithmetic. C109_ex runs the whole program by computation for each of the six summation orders, on a robot with a tool and limits; the vector it returns meets all hypotheses of C109_reaches. C109_fifth_refuted: in that run the fifth joint lies above its upper limit, as in C43. C109_reals (PropUrR.v): over the reals a call that returns something returns the same in the program. Which solutions are found in binary64 is C112 (for the reals C64).',
 "C110": 'C110_complete is the claim where the call returns, C110_coordinate_axis the same with the return guaranteed (the assertion of subproblem0 can fire on a rounded skew axis, C79). eta allows for an angle that reaches the distance only nearly, as the callers need it. reach_rate_ok proves that reach_rate is the derivative. C110_ex finds both angles of one elbow. C110_stretched_refuted is the failure at rate 0, by computation for each summation order.',
 "C111": 'C111_finds is the claim; C111_ex finds the solution of the robot of C108_ex for every summation order. The exact solution is one of the exact robot: the rounded link sums and the rounded pose without tool and base are part of the error. Left out: that the call returns (another branch of the search can meet an assertion of subproblem1 or subproblem2) and solutions near singularities, where C110_stretched_refuted and C107_touching_refuted show that solutions can be lost. With last_joints: C114.',
 "C112": 'C112_finds is the claim; C112_ex finds the solution of the robot of C109_ex for every summation order, with a fifth joint past its limits. The fourth joint is the difference of three angles, so it can be two turns away from the one asked for: the normaliser tries one, hence the condition on the limits of joints 2 and 3 (C64_lost_refuted has such a loss over the reals). Left out: that the call returns and solutions near singularities. With last_joints: C114.',
 "C113": 'C113_on_the_arc is the claim; C113_arc says what the points of the specification are (unit length, angles t th and (1-t) th from the two ends, the ends themselves at t = 0 and t = 1). C113_ex is (3, 1, -2, 1) and (1, 2, 2, -7) half way, where the first quaternion changes sign. For quaternions so nearly orthogonal that rounding decides the sign, either sign may be taken, which is why the exact dot product is only bounded by -2^-47. When the computed cosine exceeds 1 the result is NaN (C80_nan_only).',
 "C114": 'C114_tracks and C114_ur_tracks are the claim for the two programs; C114_ex and C114_ur_ex follow the robots of C111_ex and C112_ex from last_joints (1, -1, 1, -1, 1, 1) with a sorting function that reverses the candidates. Left out: that the call returns and solutions near singularities. The order of the list: C115.',
 "C115": 'C115_sorted and C115_ur_sorted are the order for the two programs; C115_first is the first vector, with C114. The fifth joint of ur_invkin is not held to the limits, so C115_ur_sorted asks that it is finite and at most 1024. C115_ex and C115_ur_ex are runs with two solutions that the sorting swaps; C115_first_ex follows the robot of C114_ex; in_order_sorts shows a sorting function that meets the contract. Left out: the first vector for ur_invkin, whose fifth joint can be whole turns away from last_joints (C114_ur_tracks).',
 "C116": 'C116_fwdkin needs no assumption that the result is finite (C76 does). C116_accepts is the limit check; C116_back and C116_ur_back compose with C108_reaches and C109_reaches and compare the stored numbers of the result with those of the requested pose. C116_ur_accepts_refuted is a run where fwdkin refuses the output of ur_invkin, whose fifth joint is not held to the limits (C109_fifth_refuted). C116_ex and C116_ur_ex take the runs of C108_ex and C109_ex back. Left out: poses near singularities, and the other direction (inverse kinematics of a computed pose), since stored_pose takes the position of the pose as exact.',
 "C117": 'C117_eq, C117_isclose and C117_self describe the comparisons; C117_special and C117_special_isclose settle infinities and NaN; C117_reals shows that the model over the reals is the teq and tisclose of the other properties. C117_inverse, C117_inv_inv and C117_cancel are about inv; C117_trip and C117_ur_trip compose with C116. C117_far_refuted: a position of 3 * 2^40 for which T * T.inv() is not equal to the identity in any summation order; C117_nan_refuted: a Transform that differs from itself. The model follows np.isclose of current numpy for infinities and NaN.',
 "C118": 'C118_one, C118_list, C118_total and C118_endless hold over any arithmetic; C118_reals shows that the model over the reals is the equiv1 of the other properties. C118_counted, C118_turns, C118_limits, C118_complete, C118_pose, C118_solutions and C118_nearest are about binary64. C118_accepts_refuted: one joint with limits -10 and just below -4 + 2 pi at -4, whose only alternative fwdkin refuses. The order of the list without last_joints is not described.',
 "C119": 'C119_invhat_refuted: an entry of 2^1023, for which invhat gives infinity. C119_self_refuted: with fused multiply-add hat(k) k is not zero for k = (0, 1/10, 1/3). C119_screw, C119_screw_product, C119_screw_sum and C119_screw_inverse are about values (signs of zeros are not described). C119_wrench, C119_twist and C119_rate are for finite results. C119_reals links the model over the reals to the screw_matrix and quatjacobian of C15 and C12.',
 "C93": "Proved, including the counterexample for robots that share only P (C93_other_axes).",
 "C94": "Proved; the numbers drawn are parameters in [0,1).",
 "C95": "Proved, including the ambiguity with quotes (C95_quotes); numpy's array texts are parameters.",
 "C91": "np.linalg.pinv enters by the contract right_inverse on the Jacobians met (it solves J d = b with l1 norm of d at most c times the size of b); robots with one joint are excluded (they always raise, C67). Real arithmetic.",
 "C88": "Proved. The binary64 part is for robots whose joints all turn.",
}
PROVED = {"C05", "C109", "C110", "C119"}
PARTIAL = set()
