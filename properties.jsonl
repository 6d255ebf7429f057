{"id": "C01", "title": "hat is the cross-product matrix and invhat inverts it", "statement": "hat(k) applied to v is the cross product k x v; hat(k) is skew-symmetric; invhat(hat(k)) = k; hat(invhat(S)) = S for every skew-symmetric S; on a general matrix invhat returns the axial vector of its skew part.", "quantifier": "all 3-vectors k, v and all 3x3 matrices", "why_tests_cant": "The input space is a continuum; a test samples finitely many points of it.", "anchors": ["src/general_robotics_toolbox/general_robotics_toolbox.py:hat", "src/general_robotics_toolbox/general_robotics_toolbox.py:invhat"]}
{"id": "C02", "title": "rot(k, theta) is the rotation by theta about k", "statement": "For every unit axis, rot(k,theta) is orthogonal with determinant +1, maps every vector v to cos(theta) v + sin(theta) k x v + (1-cos(theta))(k.v)k, leaves k fixed, preserves lengths, and has trace 1+2cos(theta).", "quantifier": "all unit vectors k, all real angles theta, all vectors v", "why_tests_cant": "The input space is a continuum; a test samples finitely many points of it.", "anchors": ["src/general_robotics_toolbox/general_robotics_toolbox.py:rot"]}
{"id": "C03", "title": "rot about one axis is a one-parameter group with period 2 pi", "statement": "rot(k,0)=I, rot(k,a)rot(k,b)=rot(k,a+b), rot(k,-a)=rot(k,a)^T=rot(-k,a), and rot(k,a)=rot(k,b) exactly when a-b is an integer multiple of 2 pi.", "quantifier": "all unit axes and all pairs of angles", "why_tests_cant": "The input space is a continuum; a test samples finitely many points of it.", "anchors": ["src/general_robotics_toolbox/general_robotics_toolbox.py:rot"]}
{"id": "C04", "title": "R2rot inverts rot away from its singular threshold", "statement": "For every rotation matrix whose rotation angle has sine at least 1e-6, R2rot returns a unit axis and an angle in (0,pi) whose rot is exactly the input.", "quantifier": "all rotation matrices with |sin theta| >= 1e-6", "why_tests_cant": "The input space is a continuum; a test samples finitely many points of it.", "anchors": ["src/general_robotics_toolbox/general_robotics_toolbox.py:R2rot", "src/general_robotics_toolbox/general_robotics_toolbox.py:invhat", "src/general_robotics_toolbox/general_robotics_toolbox.py:rot"]}
{"id": "C05", "title": "R2rot near the identity is within a stated error", "statement": "For every rotation matrix with |sin theta| < 1e-6 and cos theta > 0, R2rot returns axis [0,0,1] and angle 0, and the input differs from the identity by at most 2e-6 in every entry.", "quantifier": "all rotation matrices in that neighbourhood of the identity", "why_tests_cant": "The input space is a continuum; a test samples finitely many points of it.", "anchors": ["src/general_robotics_toolbox/general_robotics_toolbox.py:R2rot"]}
{"id": "C06", "title": "R2rot recovers half-turn rotations", "statement": "For every rotation by exactly pi about a unit axis, R2rot returns angle pi and a unit axis whose half turn is the input matrix.", "quantifier": "all unit axes", "why_tests_cant": "The failing set (axes with x component at most 1e-6 and both other components non-zero) has measure zero and is only reached by exact half turns.", "anchors": ["src/general_robotics_toolbox/general_robotics_toolbox.py:R2rot"]}
{"id": "C07", "title": "q2R maps unit quaternions to rotations and is a homomorphism", "statement": "For unit quaternions q2R(q) is a rotation matrix, q2R(-q)=q2R(q), q2R(quatproduct(q1) q2)=q2R(q1) q2R(q2), q2R(quatcomplement(q)) is the transpose, and q2R(q) v is the vector part of q v q*.", "quantifier": "all unit quaternions and all vectors", "why_tests_cant": "The input space is a continuum; a test samples finitely many points of it.", "anchors": ["src/general_robotics_toolbox/general_robotics_toolbox.py:q2R", "src/general_robotics_toolbox/general_robotics_toolbox.py:quatproduct", "src/general_robotics_toolbox/general_robotics_toolbox.py:quatcomplement"]}
{"id": "C08", "title": "quatproduct is the Hamilton product", "statement": "quatproduct(q1) q2 is the Hamilton product of q1 and q2; it is associative, norms multiply, [1,0,0,0] is neutral and q times its complement is |q|^2.", "quantifier": "all quaternions (not only unit ones)", "why_tests_cant": "The input space is a continuum; a test samples finitely many points of it.", "anchors": ["src/general_robotics_toolbox/general_robotics_toolbox.py:quatproduct", "src/general_robotics_toolbox/general_robotics_toolbox.py:quatcomplement"]}
{"id": "C09", "title": "R2q never fails on a rotation and inverts q2R", "statement": "For every rotation matrix R2q takes no square root of a negative number, divides by no zero, returns a unit quaternion, and q2R(R2q(R)) = R; for every unit quaternion R2q(q2R(q)) is q or -q.", "quantifier": "all rotation matrices, all four branches; all unit quaternions", "why_tests_cant": "Branch boundaries (trace 0, equal diagonal entries) are measure-zero sets a random test does not hit.", "anchors": ["src/general_robotics_toolbox/general_robotics_toolbox.py:R2q", "src/general_robotics_toolbox/general_robotics_toolbox.py:q2R"]}
{"id": "C10", "title": "rot2q and q2R agree with rot", "statement": "For every unit axis and angle rot2q returns a unit quaternion and q2R(rot2q(k,theta)) = rot(k,theta).", "quantifier": "all unit axes and angles", "why_tests_cant": "The input space is a continuum; a test samples finitely many points of it.", "anchors": ["src/general_robotics_toolbox/general_robotics_toolbox.py:rot2q", "src/general_robotics_toolbox/general_robotics_toolbox.py:q2R", "src/general_robotics_toolbox/general_robotics_toolbox.py:rot"]}
{"id": "C11", "title": "q2rot returns an axis-angle pair for the same rotation", "statement": "For every unit quaternion q2rot returns a unit axis and an angle in [0,2 pi] with rot(k,theta) equal to q2R(q), up to the 1e-6 identity threshold.", "quantifier": "all unit quaternions", "why_tests_cant": "The failing point q=[-1,0,0,0] is a single point.", "anchors": ["src/general_robotics_toolbox/general_robotics_toolbox.py:q2rot"]}
{"id": "C12", "title": "quatjacobian gives the quaternion rate", "statement": "If a unit quaternion curve satisfies dq/dt = quatjacobian(q) w, then the rotation q2R(q) satisfies dR/dt = hat(w) R, |q|^2 stays stationary, and quatjacobian(q) w is half the Hamilton product of (0,w) and q.", "quantifier": "all differentiable unit-quaternion curves and angular velocities", "why_tests_cant": "A statement about derivatives along every curve.", "anchors": ["src/general_robotics_toolbox/general_robotics_toolbox.py:quatjacobian", "src/general_robotics_toolbox/general_robotics_toolbox.py:q2R", "src/general_robotics_toolbox/general_robotics_toolbox.py:hat"]}
{"id": "C13", "title": "rpy2R and R2rpy are mutually inverse away from gimbal lock", "statement": "rpy2R(r,p,y) = Rz(y)Ry(p)Rx(r) is a rotation; for r,y in (-pi,pi] and p in (-pi/2,pi/2) with cos p above the guard R2rpy returns exactly (r,p,y); for every rotation matrix that passes the guard rpy2R(R2rpy(R)) = R with pitch in (-pi/2,pi/2); otherwise R2rpy raises.", "quantifier": "all angle triples and all rotation matrices", "why_tests_cant": "The input space is a continuum; a test samples finitely many points of it.", "anchors": ["src/general_robotics_toolbox/general_robotics_toolbox.py:rpy2R", "src/general_robotics_toolbox/general_robotics_toolbox.py:R2rpy"]}
{"id": "C14", "title": "slerp stays on the unit sphere and interpolates along the geodesic", "statement": "For non-zero quaternions and t in [0,1] slerp returns a unit quaternion; at t=0 it is the (possibly negated) normalised first argument and at t=1 the normalised second; in between the rotation is the first rotation followed by t times the relative rotation about one fixed axis; negating either argument does not change the rotation unless the two quaternions are orthogonal; t outside [0,1] raises.", "quantifier": "all non-zero quaternion pairs and all t", "why_tests_cant": "The input space is a continuum; a test samples finitely many points of it.", "anchors": ["src/general_robotics_toolbox/general_robotics_toolbox.py:slerp"]}
{"id": "C15", "title": "screw_matrix forms a group and preserves power", "statement": "screw_matrix(0)=I, screw_matrix(a)screw_matrix(b)=screw_matrix(a+b); moving a twist with the transpose and a wrench with the matrix leaves their power (inner product) unchanged, and the moved twist has linear part v + w x r.", "quantifier": "all displacement vectors, twists and wrenches", "why_tests_cant": "The input space is a continuum; a test samples finitely many points of it.", "anchors": ["src/general_robotics_toolbox/general_robotics_toolbox.py:screw_matrix"]}
{"id": "C16", "title": "Transform is the rigid-motion group", "statement": "Acting on points, (A*B) is A after B; * is associative, identity_transform() is neutral, and for rotation R the product with inv() on either side is the identity; products and inverses of rotations have rotation parts.", "quantifier": "all transforms with rotation parts and all points", "why_tests_cant": "The input space is a continuum; a test samples finitely many points of it.", "anchors": ["src/general_robotics_toolbox/general_robotics_toolbox.py:Transform.__mul__", "src/general_robotics_toolbox/general_robotics_toolbox.py:Transform.inv", "src/general_robotics_toolbox/general_robotics_toolbox.py:identity_transform"]}
{"id": "C17", "title": "Frame names follow composition and inversion", "statement": "A*B carries A's parent frame and B's child frame, inv() swaps them, and this holds through any product of any number of transforms.", "quantifier": "all transforms with any frame names, all product lengths", "why_tests_cant": "Unbounded product lengths.", "anchors": ["src/general_robotics_toolbox/general_robotics_toolbox.py:Transform"]}
{"id": "C18", "title": "Transform equality is a tolerance relation", "statement": "T == U and T.isclose(U, tol) hold exactly when every entry of R and p satisfies the documented numpy closeness bound; equality is reflexive; it ignores frame names. Users expect == to be symmetric and isclose(tol) to bound the error by tol.", "quantifier": "all pairs of transforms and tolerances", "why_tests_cant": "The asymmetry only shows in a thin shell of inputs.", "anchors": ["src/general_robotics_toolbox/general_robotics_toolbox.py:Transform.__eq__", "src/general_robotics_toolbox/general_robotics_toolbox.py:Transform.isclose"]}
{"id": "C19", "title": "Robot accepts exactly the well-formed descriptions", "statement": "Robot(...) succeeds exactly when H is 3xN with columns of norm within 1.001e-5 of one, P is 3x(N+1), every joint type is 0..3, there are N of them, and each supplied limit, inertia and name list has the right length; otherwise it raises; limits and the tool are stored only as complete pairs.", "quantifier": "all array shapes and contents", "why_tests_cant": "Every combination of shapes and optional arguments.", "anchors": ["src/general_robotics_toolbox/general_robotics_toolbox.py:Robot.__init__"]}
{"id": "C20", "title": "fwdkin composes the joint motions in order", "statement": "For every robot without mobile joints and every joint vector, the returned pose maps each point x to base(P0 + M1(P1 + M2(... Pn + flange(tool(x))))) where Mi rotates about H_i by theta_i or translates along it.", "quantifier": "robots with any number of joints, all joint vectors, all points", "why_tests_cant": "Unbounded chain length and continuous inputs.", "anchors": ["src/general_robotics_toolbox/general_robotics_toolbox.py:fwdkin", "src/general_robotics_toolbox/general_robotics_toolbox.py:apply_robot_aux_transforms"]}
{"id": "C21", "title": "fwdkin returns a rigid pose", "statement": "With unit axes and rotation-valued tool, flange and base, the rotation part returned by fwdkin is a rotation matrix.", "quantifier": "all robots of any length and all joint vectors", "why_tests_cant": "Unbounded chain length.", "anchors": ["src/general_robotics_toolbox/general_robotics_toolbox.py:fwdkin"]}
{"id": "C22", "title": "Joint limits are enforced exactly", "statement": "With both limits present, fwdkin and robotjacobian raise exactly when some joint is strictly outside the closed interval; with _ignore_limits or without limits they never raise for limits, and the returned value does not depend on the limits.", "quantifier": "all robots and joint vectors", "why_tests_cant": "Boundary values on every joint.", "anchors": ["src/general_robotics_toolbox/general_robotics_toolbox.py:fwdkin", "src/general_robotics_toolbox/general_robotics_toolbox.py:robotjacobian"]}
{"id": "C23", "title": "Auxiliary transforms can be applied and removed", "statement": "apply_robot_aux_transforms is T_base*T*T_flange*T_tool for whichever are present, unapply is its two-sided inverse, and fwdkin of a robot with auxiliary transforms is the transform applied to the bare robot's pose.", "quantifier": "all robots, all presence combinations, all poses", "why_tests_cant": "All combinations and a continuum of poses.", "anchors": ["src/general_robotics_toolbox/general_robotics_toolbox.py:apply_robot_aux_transforms", "src/general_robotics_toolbox/general_robotics_toolbox.py:unapply_robot_aux_transforms", "src/general_robotics_toolbox/general_robotics_toolbox.py:fwdkin"]}
{"id": "C24", "title": "robotjacobian is the derivative of fwdkin", "statement": "For every robot with rotary and prismatic joints and every differentiable joint motion, J(theta) times the joint velocity is (w, v) where d/dt of fwdkin's position is v and d/dt of fwdkin's rotation is hat(w) times the rotation, including tool, flange and base.", "quantifier": "robots of any length, all joint vectors, all joint velocities", "why_tests_cant": "A statement about limits and unbounded chain length.", "anchors": ["src/general_robotics_toolbox/general_robotics_toolbox.py:robotjacobian", "src/general_robotics_toolbox/general_robotics_toolbox.py:fwdkin"]}
{"id": "C25", "title": "robotjacobian has one column per joint", "statement": "The Jacobian has N columns for an N-joint robot; users rely on J @ qdot being well formed.", "quantifier": "all joint type sequences including mobile joints", "why_tests_cant": "All type sequences.", "anchors": ["src/general_robotics_toolbox/general_robotics_toolbox.py:robotjacobian"]}
{"id": "C26", "title": "Whole turns of rotary joints do not change the pose or the Jacobian", "statement": "Adding integer multiples of 2 pi to any rotary joints leaves fwdkin and robotjacobian unchanged (limits ignored).", "quantifier": "all robots, joints and integer multiples", "why_tests_cant": "Unbounded integers and chain lengths.", "anchors": ["src/general_robotics_toolbox/general_robotics_toolbox.py:fwdkin", "src/general_robotics_toolbox/general_robotics_toolbox.py:robotjacobian", "src/general_robotics_toolbox/general_robotics_toolbox_invkin.py:equivalent_configurations"]}
{"id": "C27", "title": "subproblem0 solves q = rot(k,theta) p for perpendicular vectors", "statement": "For unit k and non-zero p, q perpendicular to k, subproblem0 returns theta in (-pi,pi] with rot(k,theta) p/|p| = q/|q|; arguments that are not perpendicular to k are rejected.", "quantifier": "all such vectors", "why_tests_cant": "The input space is a continuum; a test samples finitely many points of it.", "anchors": ["src/general_robotics_toolbox/general_robotics_toolbox.py:subproblem0"]}
{"id": "C28", "title": "subproblem1 solves q = rot(k,theta) p, or the closest approximation", "statement": "For an axis k and p, q off the axis, subproblem1 returns theta with rot(k,theta) p = q whenever a solution exists (to within sqrt(eps)), and otherwise the angle that minimises |rot(k,theta)p - q|; a vector on the axis raises.", "quantifier": "all vectors and axes", "why_tests_cant": "The input space is a continuum; a test samples finitely many points of it.", "anchors": ["src/general_robotics_toolbox/general_robotics_toolbox.py:subproblem1"]}
{"id": "C29", "title": "subproblem2 solutions are correct", "statement": "Every pair returned by subproblem2 satisfies q = rot(k1,theta1) rot(k2,theta2) p for |p|=|q| and unit axes.", "quantifier": "all vectors and pairs of unit axes, including tangent cones", "why_tests_cant": "The one-solution branch is entered only on a measure-zero set.", "anchors": ["src/general_robotics_toolbox/general_robotics_toolbox.py:subproblem2"]}
{"id": "C30", "title": "subproblem2 finds every solution", "statement": "If rot(k1,a) rot(k2,b) p = q then, up to whole turns, (a,b) is among the returned pairs; if nothing is returned no solution exists.", "quantifier": "all vectors, axes and angle pairs", "why_tests_cant": "The input space is a continuum; a test samples finitely many points of it.", "anchors": ["src/general_robotics_toolbox/general_robotics_toolbox.py:subproblem2"]}
{"id": "C31", "title": "subproblem3 solutions are correct", "statement": "Every angle returned by subproblem3 satisfies |q + rot(k,theta) p| = d.", "quantifier": "all vectors, unit axes and distances", "why_tests_cant": "The input space is a continuum; a test samples finitely many points of it.", "anchors": ["src/general_robotics_toolbox/general_robotics_toolbox.py:subproblem3"]}
{"id": "C32", "title": "subproblem3 finds every solution", "statement": "If |q + rot(k,a) p| = d then, up to whole turns, a is among the returned angles; an empty result means that no rotation reaches d.", "quantifier": "all vectors, unit axes, distances and angles", "why_tests_cant": "The input space is a continuum; a test samples finitely many points of it.", "anchors": ["src/general_robotics_toolbox/general_robotics_toolbox.py:subproblem3"]}
{"id": "C33", "title": "subproblem4 solutions are correct and complete", "statement": "Every angle returned by subproblem4 satisfies p.rot(k,theta) q = d, every solution is returned up to whole turns, and an unreachable d gives an empty list.", "quantifier": "all vectors, axes and displacements", "why_tests_cant": "The input space is a continuum; a test samples finitely many points of it.", "anchors": ["src/general_robotics_toolbox/general_robotics_toolbox.py:subproblem4"]}
{"id": "C34", "title": "normalize keeps joints strictly inside limits and equivalent", "statement": "The normalisation used by the inverse kinematics returns either nothing or an angle that differs from its input by whole turns and, with limits, lies strictly inside them; with last_joints the returned angle is the closest equivalent one inside the limits.", "quantifier": "all limits, angles and last joint values", "why_tests_cant": "The input space is a continuum; a test samples finitely many points of it.", "anchors": ["src/general_robotics_toolbox/general_robotics_toolbox_invkin.py:normalize_joints.normalize"]}
{"id": "C35", "title": "Candidate lists are ordered by distance to last_joints", "statement": "With last_joints given, each candidate list used by the inverse kinematics is a sub-list of the normalised candidates, sorted by distance; users rely on no valid candidate being lost.", "quantifier": "all candidate lists and last joints", "why_tests_cant": "Unbounded lists.", "anchors": ["src/general_robotics_toolbox/general_robotics_toolbox_invkin.py:normalize_joints.__call__"]}
{"id": "C36", "title": "robot6_sphericalwrist_invkin returns only solutions", "statement": "For an OPW robot every returned joint vector reproduces the desired pose under fwdkin (to within the sqrt(eps) shortcuts of the subproblems).", "quantifier": "all OPW geometries, tools, bases and poses", "why_tests_cant": "The input space is a continuum; a test samples finitely many points of it.", "anchors": ["src/general_robotics_toolbox/general_robotics_toolbox_invkin.py:robot6_sphericalwrist_invkin", "src/general_robotics_toolbox/general_robotics_toolbox.py:fwdkin"]}
{"id": "C37", "title": "robot6_sphericalwrist_invkin respects joint limits", "statement": "With limits present every returned joint lies strictly inside its limits, so fwdkin accepts every returned vector.", "quantifier": "all robots and poses", "why_tests_cant": "The input space is a continuum; a test samples finitely many points of it.", "anchors": ["src/general_robotics_toolbox/general_robotics_toolbox_invkin.py:robot6_sphericalwrist_invkin"]}
{"id": "C38", "title": "robot6_sphericalwrist_invkin returns solutions nearest first", "statement": "With last_joints the result is sorted by distance to last_joints and its first entry is the closest.", "quantifier": "all robots, poses, last joints", "why_tests_cant": "The input space is a continuum; a test samples finitely many points of it.", "anchors": ["src/general_robotics_toolbox/general_robotics_toolbox_invkin.py:robot6_sphericalwrist_invkin"]}
{"id": "C39", "title": "robot6_sphericalwrist_invkin reports unreachable poses by an empty list", "statement": "A pose that cannot be reached gives an empty list.", "quantifier": "all robots and unreachable poses, with and without limits and last_joints", "why_tests_cant": "Needs a proof that no joint vector reaches the pose.", "anchors": ["src/general_robotics_toolbox/general_robotics_toolbox_invkin.py:robot6_sphericalwrist_invkin", "src/general_robotics_toolbox/general_robotics_toolbox.py:subproblem4"]}
{"id": "C40", "title": "robot6_sphericalwrist_invkin finds every solution", "statement": "Without last_joints, every joint vector inside the limits (generic position) that reaches the pose is returned up to whole turns.", "quantifier": "all OPW geometries and joint vectors", "why_tests_cant": "The input space is a continuum; a test samples finitely many points of it.", "anchors": ["src/general_robotics_toolbox/general_robotics_toolbox_invkin.py:robot6_sphericalwrist_invkin"]}
{"id": "C41", "title": "robot6_sphericalwrist_invkin does not change the robot's kinematics", "statement": "The call rewrites columns of robot.P in place; after any sequence of calls, including ones that raise, fwdkin of the robot is unchanged for every joint vector, and a second call rewrites nothing.", "quantifier": "all robots and all call histories", "why_tests_cant": "Unbounded call histories.", "anchors": ["src/general_robotics_toolbox/general_robotics_toolbox_invkin.py:robot6_sphericalwrist_invkin", "src/general_robotics_toolbox/general_robotics_toolbox.py:fwdkin"]}
{"id": "C42", "title": "ur_invkin returns only solutions", "statement": "For a UR robot every returned joint vector reproduces the desired pose under fwdkin.", "quantifier": "all UR geometries, tools, bases and poses", "why_tests_cant": "The input space is a continuum; a test samples finitely many points of it.", "anchors": ["src/general_robotics_toolbox/general_robotics_toolbox_invkin.py:ur_invkin", "src/general_robotics_toolbox/general_robotics_toolbox.py:fwdkin"]}
{"id": "C43", "title": "ur_invkin respects joint limits", "statement": "With limits present every returned joint lies inside its limits.", "quantifier": "all robots and poses", "why_tests_cant": "The input space is a continuum; a test samples finitely many points of it.", "anchors": ["src/general_robotics_toolbox/general_robotics_toolbox_invkin.py:ur_invkin"]}
{"id": "C44", "title": "equivalent_configurations lists exactly the whole-turn alternatives", "statement": "For a configuration inside the limits the result is exactly the set of other configurations that differ by whole turns on rotary joints and stay inside the closed limits, each once.", "quantifier": "all robots, limits and configurations", "why_tests_cant": "Exponentially many combinations, unbounded ranges.", "anchors": ["src/general_robotics_toolbox/general_robotics_toolbox_invkin.py:equivalent_configurations"]}
{"id": "C45", "title": "equivalent_configurations returns only additional configurations", "statement": "No returned configuration is already in the input list.", "quantifier": "all input lists", "why_tests_cant": "All input lists.", "anchors": ["src/general_robotics_toolbox/general_robotics_toolbox_invkin.py:equivalent_configurations"]}
{"id": "C46", "title": "equivalent_configurations preserves the pose and the limits", "statement": "Every returned configuration has the same forward kinematics as its source and is accepted by fwdkin's limit check.", "quantifier": "all robots, limits and configurations", "why_tests_cant": "The input space is a continuum; a test samples finitely many points of it.", "anchors": ["src/general_robotics_toolbox/general_robotics_toolbox_invkin.py:equivalent_configurations", "src/general_robotics_toolbox/general_robotics_toolbox.py:fwdkin"]}
{"id": "C47", "title": "iterative_invkin: converged means the pose is reached", "statement": "If iterative_invkin reports convergence, the returned joints' pose is within the stated tolerance of the desired pose (position error in each coordinate and sin(half rotation error) below tol).", "quantifier": "all robots, poses, seeds, gains, tolerances and step counts; any pseudo-inverse", "why_tests_cant": "Unbounded iteration counts.", "anchors": ["src/general_robotics_toolbox/general_robotics_toolbox_invkin.py:iterative_invkin", "src/general_robotics_toolbox/general_robotics_toolbox.py:R2rot"]}
{"id": "C48", "title": "iterative_invkin takes at most max_steps steps and stays near the seed", "statement": "The loop performs at most max_steps iterations, stops at the first one that meets the tolerance, and each returned rotary joint is the representative within pi of the seed.", "quantifier": "all inputs and step counts", "why_tests_cant": "Unbounded iteration counts.", "anchors": ["src/general_robotics_toolbox/general_robotics_toolbox_invkin.py:iterative_invkin", "src/general_robotics_toolbox/general_robotics_toolbox_invkin.py:normalize_joints"]}
{"id": "C49", "title": "A robot loaded from URDF has the URDF's forward kinematics", "statement": "For every chain of fixed, revolute and prismatic joints, fwdkin of the loaded robot equals the product of the URDF joint origins and joint motions along the chain, for every joint vector.", "quantifier": "URDF chains of any length with any mixture of fixed and moving joints", "why_tests_cant": "Unbounded chain length.", "anchors": ["src/general_robotics_toolbox/urdf.py:_robot_from_urdf_robot", "src/general_robotics_toolbox/urdf.py:_rpy_to_rot", "src/general_robotics_toolbox/general_robotics_toolbox.py:fwdkin"]}
{"id": "C50", "title": "URDF loading selects the chain", "statement": "Without tip_link loading succeeds only if exactly one leaf link is reachable from the root by a chain without floating joints and with a moving joint, and uses it; the joint list is the non-fixed joints from root to tip in order.", "quantifier": "all link trees", "why_tests_cant": "All trees.", "anchors": ["src/general_robotics_toolbox/urdf.py:_robot_from_urdf_robot"]}
{"id": "C51", "title": "URDF limits are loaded all or nothing and unsupported joints are rejected", "statement": "Position limits are kept only if every moving joint has them, likewise velocity and effort limits; a moving joint other than revolute or prismatic raises.", "quantifier": "all chains", "why_tests_cant": "All mixtures.", "anchors": ["src/general_robotics_toolbox/urdf.py:_robot_from_urdf_robot"]}
{"id": "C52", "title": "URDF spatial inertia gives the link's kinetic energy", "statement": "The 6x6 matrix built from a URDF inertial element is symmetric and its quadratic form on a twist is the kinetic energy of the body (parallel-axis theorem).", "quantifier": "all masses, centres of mass, inertia tensors and twists", "why_tests_cant": "The input space is a continuum; a test samples finitely many points of it.", "anchors": ["src/general_robotics_toolbox/urdf.py:_convert_inertial"]}
{"id": "C53", "title": "load_robot_info_yaml_to_robot reads the chain's own joints", "statement": "Loading chain c uses joint_info[joint_numbers[i]] for joint i's type, limits and name.", "quantifier": "all documents and chain numbers", "why_tests_cant": "All documents.", "anchors": ["src/general_robotics_toolbox/robotraconteur.py:load_robot_info_yaml_to_robot"]}
{"id": "C54", "title": "load_robot_info_yaml_to_robot rejects malformed documents and otherwise loads what is written", "statement": "Missing required keys, wrong H/P lengths, non-increasing or out-of-range joint numbers, unknown joint types and null limits raise; otherwise H, P, limits, flange, tool and base are those of the document.", "quantifier": "all documents", "why_tests_cant": "All documents.", "anchors": ["src/general_robotics_toolbox/robotraconteur.py:load_robot_info_yaml_to_robot"]}
{"id": "C55", "title": "The tool loader changes only the tool", "statement": "load_robot_and_tool_info_yaml_to_robot returns the robot of load_robot_info_yaml_to_robot with exactly the tool transform and the tip link name replaced.", "quantifier": "all document pairs", "why_tests_cant": "All documents.", "anchors": ["src/general_robotics_toolbox/robotraconteur.py:load_robot_and_tool_info_yaml_to_robot"]}
{"id": "C56", "title": "ROS vector, quaternion, twist and wrench messages round-trip", "statement": "Converting to a message and back is the identity in both directions, with quaternions w-first and twists/wrenches angular/torque first in the array.", "quantifier": "all arrays over any scalar type (including NaN)", "why_tests_cant": "All values.", "anchors": ["src/general_robotics_toolbox/ros_msg.py:q2msg", "src/general_robotics_toolbox/ros_msg.py:msg2q", "src/general_robotics_toolbox/ros_msg.py:p2msg", "src/general_robotics_toolbox/ros_msg.py:twist2msg", "src/general_robotics_toolbox/ros_msg.py:wrench2msg"]}
{"id": "C57", "title": "ROS transform messages round-trip", "statement": "A transform with rotation part converted to Transform, Pose, TransformStamped or PoseStamped and back has the same rotation and position; frame names survive where the message has a field for them; None becomes the empty string.", "quantifier": "all transforms and frame names", "why_tests_cant": "The input space is a continuum; a test samples finitely many points of it.", "anchors": ["src/general_robotics_toolbox/ros_msg.py:transform2msg", "src/general_robotics_toolbox/ros_msg.py:msg2transform"]}
{"id": "C58", "title": "msg2transform dispatches on the message's fields", "statement": "Each of the four message types is read from its own fields; any other object raises.", "quantifier": "all message objects", "why_tests_cant": "All objects.", "anchors": ["src/general_robotics_toolbox/ros_msg.py:msg2transform"]}
{"id": "C59", "title": "tf lookups are re-ordered into w-first quaternions and named frames", "statement": "lookupTransform returns the transform whose rotation is that of the listener's x,y,z,w quaternion, whose parent is the target frame and whose child is the source frame; composing lookups names frames consistently.", "quantifier": "all listener answers", "why_tests_cant": "The input space is a continuum; a test samples finitely many points of it.", "anchors": ["src/general_robotics_toolbox/ros_tf.py:TransformListener.lookupTransform"]}
{"id": "C60", "title": "robot_to_scene_graph builds a kinematically equivalent scene graph", "statement": "Walking the created scene graph from base_link to the last link reproduces fwdkin of the robot without its base transform, for every joint vector; with the world joint it reproduces fwdkin.", "quantifier": "robots with any number of rotary and prismatic joints, all joint vectors", "why_tests_cant": "Unbounded chain length.", "anchors": ["src/general_robotics_toolbox/tesseract.py:robot_to_scene_graph", "src/general_robotics_toolbox/tesseract.py:get_link_and_joint", "src/general_robotics_toolbox/tesseract.py:get_robot_world_to_base_joint", "src/general_robotics_toolbox/general_robotics_toolbox.py:fwdkin"]}
{"id": "C61", "title": "robot_to_scene_graph returns a serial chain with the documented names", "statement": "The created links are base_link, link_1..link_N, chain_tip and, when present, flange and tool_tcp, each attached to the previous one; the returned name lists are exactly these and the environment prefixes all of them with the robot name.", "quantifier": "robots with any number of joints", "why_tests_cant": "Unbounded chain length.", "anchors": ["src/general_robotics_toolbox/tesseract.py:robot_to_scene_graph", "src/general_robotics_toolbox/tesseract.py:robot_to_tesseract_env_commands", "src/general_robotics_toolbox/tesseract.py:_prefix_names"]}
{"id": "C62", "title": "robot_to_ur_inv_kin_parameters accepts the UR robots that ur_invkin accepts", "statement": "Both UR axis layouts accepted by ur_invkin are accepted and the returned DH parameters describe the robot.", "quantifier": "all UR geometries", "why_tests_cant": "The input space is a continuum; a test samples finitely many points of it.", "anchors": ["src/general_robotics_toolbox/tesseract.py:robot_to_ur_inv_kin_parameters", "src/general_robotics_toolbox/general_robotics_toolbox_invkin.py:ur_invkin"]}
{"id": "C63", "title": "The closed-form inverse kinematics raises only documented kinds of errors", "statement": "For well-formed OPW and UR robots and 6-entry last_joints, the two solvers either return a list or raise AssertionError, or ValueError when last_joints is given and nothing is found; in regular positions no assertion fails.", "quantifier": "all OPW and UR geometries, all rigid poses, any limits", "why_tests_cant": "The input space is a continuum; a test samples finitely many points of it.", "anchors": ["src/general_robotics_toolbox/general_robotics_toolbox_invkin.py:robot6_sphericalwrist_invkin", "src/general_robotics_toolbox/general_robotics_toolbox_invkin.py:ur_invkin"]}
{"id": "C64", "title": "ur_invkin finds every solution", "statement": "Without last_joints, every joint vector inside the limits (generic position) that reaches the pose is returned up to whole turns.", "quantifier": "all UR geometries, all poses and joint vectors", "why_tests_cant": "The input space is a continuum; a test samples finitely many points of it.", "anchors": ["src/general_robotics_toolbox/general_robotics_toolbox_invkin.py:ur_invkin"]}
{"id": "C65", "title": "Tracking: a solution near last_joints is found", "statement": "If a regular joint vector inside the limits reaches the pose and each of its joints is within a quarter turn of last_joints, then it is in the returned list, exactly (not just up to whole turns), and the first entry is at least as close to last_joints.", "quantifier": "all OPW and UR geometries, all poses, all last_joints", "why_tests_cant": "The input space is a continuum; a test samples finitely many points of it.", "anchors": ["src/general_robotics_toolbox/general_robotics_toolbox_invkin.py:robot6_sphericalwrist_invkin", "src/general_robotics_toolbox/general_robotics_toolbox_invkin.py:ur_invkin", "src/general_robotics_toolbox/general_robotics_toolbox_invkin.py:normalize_joints"]}
{"id": "C66", "title": "ur_invkin reports unreachable poses by an empty list", "statement": "A pose that cannot be reached gives an empty list.", "quantifier": "all UR geometries, all rigid poses, any limits", "why_tests_cant": "The input space is a continuum; a test samples finitely many points of it.", "anchors": ["src/general_robotics_toolbox/general_robotics_toolbox_invkin.py:ur_invkin"]}
{"id": "C67", "title": "iterative_invkin returns a result for every seed of the right length", "statement": "For a robot with rotary and prismatic joints, a rigid pose and a seed with one entry per joint, iterative_invkin returns a result (no exception) whenever the pseudo-inverse does.", "quantifier": "all robots, poses, seeds, gains, tolerances and step counts", "why_tests_cant": "Unbounded iteration counts.", "anchors": ["src/general_robotics_toolbox/general_robotics_toolbox_invkin.py:iterative_invkin"]}
{"id": "C68", "title": "The M matrices of a robot loaded from URDF belong to its bodies", "statement": "The i-th 6x6 matrix gives the kinetic energy of the body moved by joint i: the links joined to it by fixed joints, in the frame of its first link.", "quantifier": "all link trees and all mass distributions", "why_tests_cant": "Unbounded chain length and a continuum of masses.", "anchors": ["src/general_robotics_toolbox/urdf.py:_robot_from_urdf_robot", "src/general_robotics_toolbox/urdf.py:_append_inertia", "src/general_robotics_toolbox/urdf.py:_convert_inertial"]}
{"id": "C69", "title": "Loading a URDF terminates", "statement": "For every set of links and joints with unique names and parents, _robot_from_urdf_robot returns or raises.", "quantifier": "all link graphs", "why_tests_cant": "A test cannot observe that a call never returns.", "anchors": ["src/general_robotics_toolbox/urdf.py:_robot_from_urdf_robot"]}
{"id": "C70", "title": "Messages and lookups give rotations exactly for unit quaternions", "statement": "msg2transform and lookupTransform return a rigid transform for every message whose quaternion is not zero.", "quantifier": "all messages and listener answers", "why_tests_cant": "A continuum of quaternions; generators produce normalised ones.", "anchors": ["src/general_robotics_toolbox/ros_msg.py:msg2transform", "src/general_robotics_toolbox/ros_tf.py:TransformListener.lookupTransform", "src/general_robotics_toolbox/general_robotics_toolbox.py:q2R"]}
{"id": "C71", "title": "A robot loaded from a Robot Raconteur document moves as the document says", "statement": "For unit axes, fwdkin of the loaded robot accepts every joint vector inside the limits and composes the document's joints, flange, tool and base; all joints are rotary or prismatic and have limits.", "quantifier": "all documents, all joint vectors", "why_tests_cant": "Unbounded documents and a continuum of joint vectors.", "anchors": ["src/general_robotics_toolbox/robotraconteur.py:load_robot_info_yaml_to_robot", "src/general_robotics_toolbox/general_robotics_toolbox.py:fwdkin"]}
{"id": "C72", "title": "robot_to_opw_inv_kin_parameters returns parameters that describe the robot", "statement": "Every robot of OPW structure with the required flange that is outstretched along x or z at zero is accepted and the OPW arm with the returned parameters (up to rounding) moves as the robot.", "quantifier": "all OPW geometries, axis signs and joint vectors", "why_tests_cant": "The input space is a continuum; a test samples finitely many points of it.", "anchors": ["src/general_robotics_toolbox/tesseract.py:robot_to_opw_inv_kin_parameters"]}
{"id": "C73", "title": "The kinematics plugin information is consistent", "statement": "Without override the chosen solver is the default, it is one of the four supported ones and is configured with links of the environment; unknown solvers are refused; an override in the documented form is used.", "quantifier": "all robots, names, solvers and overrides", "why_tests_cant": "Unbounded chains; strings and dicts of any size.", "anchors": ["src/general_robotics_toolbox/tesseract.py:kinematics_plugin_info_dict", "src/general_robotics_toolbox/tesseract.py:robot_to_tesseract_env_commands", "src/general_robotics_toolbox/tesseract.py:tesseract_kinematics_information"]}
{"id": "C74", "title": "The closed-form solvers are configured between the right links", "statement": "For OPWInvKin and URInvKin the environment carries the configured tip link, seen from the configured base link, as the arm with the configured parameters.", "quantifier": "all OPW and UR geometries, all joint vectors", "why_tests_cant": "The input space is a continuum; a test samples finitely many points of it.", "anchors": ["src/general_robotics_toolbox/tesseract.py:kinematics_plugin_info_dict", "src/general_robotics_toolbox/tesseract.py:robot_to_tesseract_env", "src/general_robotics_toolbox/tesseract.py:robot_to_opw_inv_kin_parameters", "src/general_robotics_toolbox/tesseract.py:robot_to_ur_inv_kin_parameters"]}
{"id": "C75", "title": "TesseractRobot agrees with the Python solvers", "statement": "Given a library that places the links correctly, fwdkin, jacobian and invkin of TesseractRobot agree with fwdkin and robotjacobian of the robot.", "quantifier": "robots with any number of rotary and prismatic joints, all joint vectors, poses and link names", "why_tests_cant": "Unbounded chain length.", "anchors": ["src/general_robotics_toolbox/tesseract.py:TesseractRobot.fwdkin", "src/general_robotics_toolbox/tesseract.py:TesseractRobot.jacobian", "src/general_robotics_toolbox/tesseract.py:TesseractRobot.invkin", "src/general_robotics_toolbox/general_robotics_toolbox.py:fwdkin", "src/general_robotics_toolbox/general_robotics_toolbox.py:robotjacobian"]}
{"id": "C76", "title": "Rounding errors of fwdkin stay bounded along the chain", "statement": "In binary64 arithmetic, with any order of summation in the dot products and a math library whose sin and cos are within 2^-52, fwdkin raises exactly when the exact one does and a finite result differs from the exact pose by at most (n+3)(100 d + 2^-42) in the rotation and that times the span of the arm in the position, d being the deviation of the stored axes, tools and base from exact ones.", "quantifier": "chains of any length, all finite joint vectors, all finite parameters", "why_tests_cant": "Unbounded chain length and all binary64 inputs; a test sees a handful of values and one library.", "anchors": ["src/general_robotics_toolbox/general_robotics_toolbox.py:fwdkin", "src/general_robotics_toolbox/general_robotics_toolbox.py:rot"]}
{"id": "C77", "title": "Rounding errors of products of Transforms stay bounded", "statement": "A product of any number of transforms computed in binary64 differs from the exact product of the exact transforms by at most (1+len)(3d + 2^-46), relative to the reach of the transforms.", "quantifier": "lists of transforms of any length", "why_tests_cant": "Unbounded length and all binary64 inputs.", "anchors": ["src/general_robotics_toolbox/general_robotics_toolbox.py:Transform.__mul__"]}
{"id": "C78", "title": "Axes accepted by Robot that are only nearly of unit length change fwdkin little", "statement": "Robot accepts axes within 1e-5 of unit length; fwdkin then differs from that of the robot with normalised axes by at most 2.1e-4 (n+3), relative to the span of the arm.", "quantifier": "robots with any number of joints, all joint vectors", "why_tests_cant": "The input space is a continuum; a test samples finitely many points of it.", "anchors": ["src/general_robotics_toolbox/general_robotics_toolbox.py:Robot.__init__", "src/general_robotics_toolbox/general_robotics_toolbox.py:fwdkin"]}
{"id": "C79", "title": "subproblem1 accepts valid arguments in binary64", "statement": "If exact arithmetic finds the rotation of p into q about k, so does the code in binary64.", "quantifier": "all binary64 vectors", "why_tests_cant": "All binary64 vectors.", "anchors": ["src/general_robotics_toolbox/general_robotics_toolbox.py:subproblem1", "src/general_robotics_toolbox/general_robotics_toolbox.py:subproblem0"]}
{"id": "C80", "title": "slerp returns finite quaternions in binary64", "statement": "slerp of finite non-zero quaternions is finite for every t in [0,1].", "quantifier": "all binary64 quaternions", "why_tests_cant": "All binary64 quaternions.", "anchors": ["src/general_robotics_toolbox/general_robotics_toolbox.py:slerp"]}
{"id": "C81", "title": "equivalent_configurations respects the limits in binary64", "statement": "Every alternative found for a joint value inside the limits lies inside the limits.", "quantifier": "all binary64 limits and joint values", "why_tests_cant": "All binary64 numbers.", "anchors": ["src/general_robotics_toolbox/general_robotics_toolbox_invkin.py:equivalent_configurations"]}
{"id": "C82", "title": "subproblem3 finds the solution of a stretched arm in binary64", "statement": "If exact arithmetic finds a solution of |q + rot(k,t)p| = d, so does the code in binary64.", "quantifier": "all binary64 vectors and distances", "why_tests_cant": "All binary64 vectors.", "anchors": ["src/general_robotics_toolbox/general_robotics_toolbox.py:subproblem3"]}
{"id": "C83", "title": "R2rot of a computed half turn is finite in binary64", "statement": "For every axis of unit length (up to rounding) R2rot(rot(k, pi)) consists of finite numbers.", "quantifier": "all binary64 unit axes", "why_tests_cant": "All binary64 axes.", "anchors": ["src/general_robotics_toolbox/general_robotics_toolbox.py:R2rot", "src/general_robotics_toolbox/general_robotics_toolbox.py:rot"]}
{"id": "C84", "title": "ur_invkin answers only for UR robots", "statement": "Unless the robot has six axes that agree with one of the two UR layouts up to the tolerance of np.allclose, ur_invkin raises for every pose: AssertionError for six (or one) axes, ValueError otherwise.", "quantifier": "robots with any number of joints, all poses", "why_tests_cant": "The input space is a continuum; a test samples finitely many points of it.", "anchors": ["src/general_robotics_toolbox/general_robotics_toolbox_invkin.py:ur_invkin"]}
{"id": "C85", "title": "Redundant solutions of a TesseractRobot are the other configurations within the limits", "statement": "For a TesseractRobot, redundant_solutions(theta) lists every other joint vector that differs from theta by whole turns of rotary joints and respects the limits, nothing else, and none twice: the same set as equivalent_configurations of the robot. The kinematic group the answer comes from is determined by the environment.", "quantifier": "robots with any number of joints, all joint vectors", "why_tests_cant": "The input space is a continuum; a test samples finitely many points of it.", "anchors": ["src/general_robotics_toolbox/tesseract.py:redundant_solutions", "src/general_robotics_toolbox/tesseract.py:TesseractRobot.redundant_solutions"]}
{"id": "C86", "title": "Rounding errors of the Jacobian stay bounded", "statement": "In binary64 arithmetic robotjacobian raises exactly the errors of the exact computation, and each finite column differs from the exact one by at most err in the angular part and err (1 + 2 span) in the linear part, err = (2n+3)(100 d + 2^-42) and the span being the lengths of links, strokes, flange and tool; with mobile joints the bound is 48 times as large. The same program text over the reals is the exact Jacobian.", "quantifier": "robots with any number of joints of all types, all finite joint vectors", "why_tests_cant": "Unbounded chain length and all binary64 inputs; a test sees a handful of values and one library.", "anchors": ["src/general_robotics_toolbox/general_robotics_toolbox.py:robotjacobian"]}
{"id": "C87", "title": "Normalised joint angles respect the limits exactly in binary64", "statement": "Every angle that normalize returns lies strictly between the limits as a binary64 number, with no rounding tolerance; the candidate list is never empty, so the only errors are indices out of range; None results exactly when the angle and its two neighbours a turn away are outside. The angle is the given one plus whole turns up to rounding, and without limits within half a turn of last_joints up to rounding.", "quantifier": "all binary64 angles (NaN and infinities included), limits, last_joints, argsort functions", "why_tests_cant": "All binary64 numbers; rounding at a limit depends on single bits.", "anchors": ["src/general_robotics_toolbox/general_robotics_toolbox_invkin.py:normalize_joints"]}
{"id": "C88", "title": "Small changes of the joint values move the tool little", "statement": "Between two joint vectors no point of the tool moves further than the sum over the joints of the change times the length of the arm beyond the joint (times 1 for prismatic joints), and no direction turns by more than the sum of the changes; changes by whole turns do not count. Joint vectors normalised in binary64 therefore reach the same pose up to n 2^-53 (12 B + 64) times the arm length.", "quantifier": "robots with any number of joints, all joint vectors, tool points", "why_tests_cant": "The input space is a continuum; a test samples finitely many points of it.", "anchors": ["src/general_robotics_toolbox/general_robotics_toolbox.py:fwdkin", "src/general_robotics_toolbox/general_robotics_toolbox_invkin.py:normalize_joints"]}
{"id": "C89", "title": "The angle of subproblem1 is accurate in binary64", "statement": "Whenever subproblem1 answers in binary64, the answer is finite and either 0 with p and q closer than 2^-26 (plus rounding), or the rotation about k by it takes the direction of p, seen along the axis, to that of q up to 2^-31 r, r being the ratio of the size of the inputs to their distance from the axis (at most 2^20). If some rotation about k takes p to q, the answer does so up to 2^-26 + 2^-31 M, M being the size of the inputs. The only error is AssertionError.", "quantifier": "all binary64 vectors of size 2^-380 to 2^380 and axes of such a length", "why_tests_cant": "All binary64 vectors; six summation orders; any math library within 2^-50.", "anchors": ["src/general_robotics_toolbox/general_robotics_toolbox.py:subproblem1", "src/general_robotics_toolbox/general_robotics_toolbox.py:subproblem0"]}
{"id": "C90", "title": "R2rot recovers axis and angle in binary64", "statement": "If a stored matrix has entries within e <= 2^-28 of the rotation by t in [0, pi] about a unit axis k with sin t >= 2^-19, R2rot returns finite numbers, the angle within 13e + 2^-44 of t and the axis within (6e + 2^-45)/sin t of k; for the matrix computed by rot from an axis within d <= 2^-34 of k the errors are at most 600d + 2^-40 and (300d + 2^-41)/sin t.", "quantifier": "all stored matrices and axes, all angles with sine at least 2^-19, every summation order of dot, every math library within the stated error", "why_tests_cant": "All binary64 matrices.", "anchors": ["src/general_robotics_toolbox/general_robotics_toolbox.py:R2rot", "src/general_robotics_toolbox/general_robotics_toolbox.py:rot", "src/general_robotics_toolbox/general_robotics_toolbox.py:invhat"]}
{"id": "C91", "title": "iterative_invkin converges from seeds near a regular solution", "statement": "If the tool at the seed is within m <= 3/10 of the wanted pose (position, and sine of half the angle), the arm is at most M >= 1 long, and within 6cm of the seed the Jacobian has a right inverse of size c with M c^2 m <= 1/5, then iterative_invkin reports convergence within 200 steps at its default gains and tolerance, its answer is within 6cm of the seed and its pose within 2e-4 of the wanted one. In particular it converges from every seed within m/M of a solution.", "quantifier": "robots with any number of rotary and prismatic joints, all poses, seeds, tolerances from 2e-6, step counts", "why_tests_cant": "The input space is a continuum; a test samples finitely many points of it.", "anchors": ["src/general_robotics_toolbox/general_robotics_toolbox_invkin.py:iterative_invkin", "src/general_robotics_toolbox/general_robotics_toolbox.py:fwdkin", "src/general_robotics_toolbox/general_robotics_toolbox.py:robotjacobian", "src/general_robotics_toolbox/general_robotics_toolbox.py:R2rot"]}
{"id": "C92", "title": "Computed poses share no memory with their arguments", "statement": "The arrays of a product, an inverse, an identity, a fwdkin result or a pose changed by auxiliary transforms are new: later assignments to the arguments do not change them and assignments to them do not change the arguments. Transform(R, p) copies R but keeps p, so a later change of p always changes the pose; for robots without tool, flange and base the auxiliary transforms return the very pose they are given. On values the functions agree with the model without memory.", "quantifier": "all memories, arrays (also views), poses, robots, sequences of later assignments", "why_tests_cant": "Aliasing bugs show only for the caller who changes an array later; the theorem quantifies over all later assignments.", "anchors": ["src/general_robotics_toolbox/general_robotics_toolbox.py:Transform", "src/general_robotics_toolbox/general_robotics_toolbox.py:fwdkin", "src/general_robotics_toolbox/general_robotics_toolbox.py:apply_robot_aux_transforms", "src/general_robotics_toolbox/general_robotics_toolbox.py:unapply_robot_aux_transforms"]}
{"id": "C93", "title": "robot6_sphericalwrist_invkin changes only the array P, and who shares P notices", "statement": "When P overlaps neither H nor the pose, the call returns what the model on values returns and changes no cell outside P, also when it raises. Robots not using this array keep all their data; robots built on the same H and P (other tool, limits, base) keep their forward kinematics and Jacobian; a robot sharing only P with other axes moves.", "quantifier": "all memories, robots of any size, poses, other robots on the same or other arrays", "why_tests_cant": "All ways of sharing arrays between robots.", "anchors": ["src/general_robotics_toolbox/general_robotics_toolbox_invkin.py:robot6_sphericalwrist_invkin", "src/general_robotics_toolbox/general_robotics_toolbox.py:Robot"]}
{"id": "C94", "title": "random_R returns rotations with non-negative axis", "statement": "For all draws of np.random.rand except four zeros random_R returns a rotation, and the rotations it can return are exactly those by an angle in [0, pi] about an axis with no negative component; the other rotations are never drawn. random_transform adds a position in [0,1)^3.", "quantifier": "all draws; all rotations", "why_tests_cant": "A finite sample cannot show that a rotation is never drawn.", "anchors": ["src/general_robotics_toolbox/general_robotics_toolbox.py:random_R", "src/general_robotics_toolbox/general_robotics_toolbox.py:random_p", "src/general_robotics_toolbox/general_robotics_toolbox.py:random_transform"]}
{"id": "C95", "title": "The text of a Transform determines its frame names", "statement": "If the names contain no double quote, two Transforms with the same repr (or the same str) have the same parent_frame_id and child_frame_id, whatever texts numpy gives for the arrays (without double quotes); with double quotes in a name two different Transforms have the same repr.", "quantifier": "all transforms, frame names, array formatting functions", "why_tests_cant": "The input space is a continuum; a test samples finitely many points of it.", "anchors": ["src/general_robotics_toolbox/general_robotics_toolbox.py:Transform.__repr__", "src/general_robotics_toolbox/general_robotics_toolbox.py:Transform.__str__"]}
{"id": "C96", "title": "A robot loaded from a file can be used with TesseractRobot and the inverse kinematics as the file says", "statement": "TesseractRobot accepts a robot loaded from a file, and its forward kinematics is that of the file; the joint values returned by robot6_sphericalwrist_invkin for a robot loaded from URDF reach the pose in the URDF's own kinematics.", "quantifier": "all URDF and Robot Raconteur documents, chains of any length, poses, joint values", "why_tests_cant": "Joins two loaders, the kinematics and the exporter over all documents; the tests exercise each part alone.", "anchors": ["src/general_robotics_toolbox/urdf.py:_robot_from_urdf_robot", "src/general_robotics_toolbox/tesseract.py:robot_to_scene_graph", "src/general_robotics_toolbox/tesseract.py:TesseractRobot", "src/general_robotics_toolbox/general_robotics_toolbox_invkin.py:robot6_sphericalwrist_invkin"]}
{"id": "C97", "title": "R2q returns the quaternion of the rotation in binary64", "statement": "For every stored matrix with entries within e <= 1/64 of a rotation Q, R2q does not raise and returns four finite numbers within 3e + 18*2^-53 of a unit quaternion of Q: no branch of the case distinction loses accuracy, also at and near half turns and where two branches meet.", "quantifier": "all rotations, all matrices stored with entries within 1/64 of them, any summation order", "why_tests_cant": "All binary64 matrices; the hard cases are where the branches of R2q meet and the trace is near 0.", "anchors": ["src/general_robotics_toolbox/general_robotics_toolbox.py:R2q"]}
{"id": "C98", "title": "q2R is accurate in binary64 and inverts R2q both ways", "statement": "For a stored quaternion within d <= 1/16 of a unit quaternion q the entries of q2R are within 7.5 d + 40*2^-53 of the rotation of q. R2q followed by q2R returns a matrix stored within e up to 23e + 2^-45; q2R followed by R2q returns a quaternion stored within d, or its negative, up to 23d + 2^-45.", "quantifier": "all unit quaternions and rotations and their stored forms, every summation order of dot", "why_tests_cant": "All binary64 quaternions and matrices.", "anchors": ["src/general_robotics_toolbox/general_robotics_toolbox.py:q2R", "src/general_robotics_toolbox/general_robotics_toolbox.py:R2q"]}
{"id": "C99", "title": "quatproduct, quatcomplement and rot2q are accurate in binary64", "statement": "quatproduct(q).dot(p) on stored unit quaternions is within 4.25 d + 13*2^-53 of the Hamilton product and its q2R within 32d + 2^-45 of the product of the rotations; quatcomplement is exact; rot2q is within d + 8*2^-53 of the quaternion of the rotation and q2R of it within 7.5 d + 2^-46 of rot(k, theta).", "quantifier": "all stored unit quaternions and axes, angles up to 8 in size, every summation order of dot, every math library with sin and cos within 2^-52", "why_tests_cant": "All binary64 quaternions.", "anchors": ["src/general_robotics_toolbox/general_robotics_toolbox.py:quatproduct", "src/general_robotics_toolbox/general_robotics_toolbox.py:quatcomplement", "src/general_robotics_toolbox/general_robotics_toolbox.py:rot2q", "src/general_robotics_toolbox/general_robotics_toolbox.py:q2R"]}
{"id": "C100", "title": "A pose survives repeated conversion to a ROS message and back", "statement": "Converting a Transform to a geometry_msgs message and back n times in binary64 leaves the position unchanged and the rotation up to an error proportional to e + n 2^-52.", "quantifier": "all poses and their stored forms, numbers of conversions, every summation order of dot", "why_tests_cant": "The error doubles or triples in each conversion for some angles and stays at rounding level for others; a test of one round trip passes.", "anchors": ["src/general_robotics_toolbox/ros_msg.py:transform2msg", "src/general_robotics_toolbox/ros_msg.py:msg2transform", "src/general_robotics_toolbox/general_robotics_toolbox.py:R2q", "src/general_robotics_toolbox/general_robotics_toolbox.py:q2R"]}
{"id": "C101", "title": "Roll, pitch and yaw are accurate in binary64", "statement": "rpy2R of stored angles is within 2^-44 of the rotation. R2rpy of a matrix stored within e of a rotation with pitch p either raises AssertionError or returns the angles up to whole turns, and rpy2R of them returns the matrix, up to an error proportional to e + 2^-50.", "quantifier": "all rotations and angles and their stored forms, every summation order of dot, every math library within 2^-50", "why_tests_cant": "All binary64 matrices; the loss of accuracy is near the vertical, where the assertion does not yet fire.", "anchors": ["src/general_robotics_toolbox/general_robotics_toolbox.py:rpy2R", "src/general_robotics_toolbox/general_robotics_toolbox.py:R2rpy", "src/general_robotics_toolbox/urdf.py:_rpy_to_rot"]}
{"id": "C102", "title": "The URDF loaders read the file of the package and build the robot of the document", "statement": "With a package, robot_from_xml_file and robot_from_xacro_file read a file inside the package directory, whatever the name; file, xacro file, parameter server and string loaders build the same robot from the same document, with the root and tip links asked for, and pass on the exception of a source that fails.", "quantifier": "all file names, packages, file systems, documents, links", "why_tests_cant": "All path names and file systems; the tests read two fixed files without a package.", "anchors": ["src/general_robotics_toolbox/urdf.py:_resolve_file", "src/general_robotics_toolbox/urdf.py:_load_xml_to_string", "src/general_robotics_toolbox/urdf.py:_load_xacro_to_string", "src/general_robotics_toolbox/urdf.py:robot_from_xml_file", "src/general_robotics_toolbox/urdf.py:robot_from_xacro_file", "src/general_robotics_toolbox/urdf.py:robot_from_parameter_server", "src/general_robotics_toolbox/urdf.py:robot_from_xml_string"]}
{"id": "C103", "title": "iterative_invkin in binary64 reports convergence only at the desired pose", "statement": "If iterative_invkin returns converged = True for a stored robot and pose with error d, then some iterate p has |p_T - p_d| <= 2 tol + err*span and its orientation error has entries below max(tol, 2e-6) + 40 err, where err = (n+3)(100 d + 2^-42), and the returned joints are p moved by whole turns up to rounding; for turning joints the returned joints move every tool point to within the tolerance of where the pose puts it.", "quantifier": "all stored robots, poses, seeds, gains, numbers of iterations, any pseudo-inverse, every summation order of dot, every math library within 2^-52 (sin, cos) and 2^-50 (arctan2)", "why_tests_cant": "All binary64 runs with any pseudo-inverse; the misreading of half turns needs an axis within the tolerance of the last axis.", "anchors": ["src/general_robotics_toolbox/general_robotics_toolbox_invkin.py:iterative_invkin", "src/general_robotics_toolbox/general_robotics_toolbox.py:R2rot", "src/general_robotics_toolbox/general_robotics_toolbox.py:fwdkin"]}
{"id": "C104", "title": "q2rot returns the rotation of the quaternion in binary64", "statement": "For a stored quaternion within d <= 2^-46 of a unit quaternion q, q2rot returns finite numbers and the turn by the returned angle about the returned axis is within 6d + 2^-45 of the rotation of q, or q is within 6e-7 of the identity and the result is no rotation about z; rot2q of the result is q up to d + 2^-48; the axis is accurate to (3d + 2^-48)/s^2 and the angle to (4d + 2^-48)/s with s the length of the vector part.", "quantifier": "all stored unit quaternions, every math library within 2^-52 (sin, cos) and 2^-50 (arccos)", "why_tests_cant": "All binary64 quaternions; the loss of accuracy of the axis near the identity, the arc cosine of a number just above 1 and the division by a sine near 0 are not met by a few test values.", "anchors": ["src/general_robotics_toolbox/general_robotics_toolbox.py:q2rot", "src/general_robotics_toolbox/general_robotics_toolbox.py:rot2q"]}
{"id": "C105", "title": "Several robots share one Tesseract environment", "statement": "An environment for one robot, to which further robots are added with include_world=False, gives every robot its own kinematics: TesseractRobot for the environment has base link world and the robot's last link as tip, and its fwdkin, jacobian, invkin and kinematic group are those of that robot, whatever the joint values of the others. A robot is accepted exactly when its name is new and it brings no joint name that is already there; link names never clash. Exactly one of robot and tesseract_env may be given. Robots with different names can always be put together.", "quantifier": "any number of robots, chains of any length, names, joint values", "why_tests_cant": "Ranges over all numbers of robots and all names; the tests put one robot in an environment. Clashes need names that contain underscores.", "anchors": ["src/general_robotics_toolbox/tesseract.py:TesseractRobot", "src/general_robotics_toolbox/tesseract.py:robot_to_tesseract_env_commands", "src/general_robotics_toolbox/tesseract.py:robot_to_scene_graph"]}
{"id": "C106", "title": "subproblem4 finds the angles in binary64", "statement": "For stored vectors of sizes up to M and N and a stored unit axis, every finite angle t that subproblem4 returns has |p.rot(k,t)q - d| <= 2^-42 M N. A solution s where the displacement changes at a rate of at least kap >= 2^-20 M N is found up to 2^-40 M N / kap and whole turns, next to a second finite angle. A d out of reach gives no angle.", "quantifier": "all stored vectors and axes with sizes between 2^-190 and 2^190, all d, every summation order of dot, every math library within 2^-50 (arctan2, arcsin)", "why_tests_cant": "All binary64 vectors; the two solutions merge at the ends of the reach, where the arc sine loses half of the digits.", "anchors": ["src/general_robotics_toolbox/general_robotics_toolbox.py:subproblem4"]}
{"id": "C107", "title": "subproblem2 finds the pairs of angles in binary64", "statement": "For stored vectors of equal length up to M, and stored unit axes at angle phi, every pair that subproblem2 returns has |rot(k1,t1)rot(k2,t2)p - q| <= 2 sqrt(eps) + M r (2^-28 + 2^-37 G^2), with G >= 1/sin^2(phi) and r >= M over the distances of p and q from their axes. A solution where the cones cross by at least be^2 M^2 is found up to sqrt(eps) + M r (2^-29 + 2^-38 G^2) + M 2^-39 G^2/be. Cones that miss each other by more than 2^-39 M^2 G^2 + eps give the empty list.", "quantifier": "all stored vectors and axes with sizes between 2^-150 and 2^150, every summation order of dot, every math library with arctan2 within 2^-50", "why_tests_cant": "All binary64 vectors; the result degrades where the axes become parallel, where a vector comes near an axis and where the cones touch.", "anchors": ["src/general_robotics_toolbox/general_robotics_toolbox.py:subproblem2", "src/general_robotics_toolbox/general_robotics_toolbox.py:subproblem1", "src/general_robotics_toolbox/general_robotics_toolbox.py:subproblem0"]}
{"id": "C108", "title": "robot6_sphericalwrist_invkin reaches the pose in binary64", "statement": "Every vector of finite joint values up to 1024 that robot6_sphericalwrist_invkin returns places each tool point u within sqrt(eps) + rho 2^-22 (M + |u|) of where the pose puts it. M bounds the sum of all link vectors, the pose and the auxiliary shifts. rho bounds M over the distances of the two arm links and of their sum from the elbow axis, and one over the sine of the wrist angle. With limits every returned value is finite and strictly inside them, and every returned vector has six entries.", "quantifier": "all stored six-axis robots with spherical wrist, auxiliary transforms, poses, limits and last joints, with sizes between 2^-150 and 2^150 and rho up to 1000; every summation order of dot, every math library with sin and cos within 2^-52 and the inverse functions within 2^-50", "why_tests_cant": "All binary64 robots and poses; the errors of five subproblems pass through one another and grow near the singular poses.", "anchors": ["src/general_robotics_toolbox/general_robotics_toolbox_invkin.py:robot6_sphericalwrist_invkin", "src/general_robotics_toolbox/general_robotics_toolbox_invkin.py:normalize_joints", "src/general_robotics_toolbox/general_robotics_toolbox.py:unapply_robot_aux_transforms", "src/general_robotics_toolbox/general_robotics_toolbox.py:subproblem1", "src/general_robotics_toolbox/general_robotics_toolbox.py:subproblem2", "src/general_robotics_toolbox/general_robotics_toolbox.py:subproblem3", "src/general_robotics_toolbox/general_robotics_toolbox.py:subproblem4"]}
{"id": "C109", "title": "ur_invkin reaches the pose in binary64", "statement": "Every vector of finite joint values up to 1024 that ur_invkin returns places each tool point u within sqrt(eps) + rho 2^-22 (M + |u|) of where the pose puts it. M bounds the sum of all link vectors, the pose and the auxiliary shifts. rho bounds M over the distances of the two arm links and of their sum from the elbow axis, and one over the sine of the angle between the second and the last axis. With limits every returned value but the fifth is finite and strictly inside them, and every returned vector has six entries.", "quantifier": "all stored UR robots, auxiliary transforms, poses, limits and last joints, with sizes between 2^-150 and 2^150 and rho up to 1000; every summation order of dot, every math library with sin and cos within 2^-52 and the inverse functions within 2^-50", "why_tests_cant": "All binary64 robots and poses; the fourth joint is a difference of rounded and normalised angles, and the fifth is never checked against its limits.", "anchors": ["src/general_robotics_toolbox/general_robotics_toolbox_invkin.py:ur_invkin", "src/general_robotics_toolbox/general_robotics_toolbox_invkin.py:normalize_joints", "src/general_robotics_toolbox/general_robotics_toolbox.py:unapply_robot_aux_transforms", "src/general_robotics_toolbox/general_robotics_toolbox.py:subproblem1", "src/general_robotics_toolbox/general_robotics_toolbox.py:subproblem2", "src/general_robotics_toolbox/general_robotics_toolbox.py:subproblem3", "src/general_robotics_toolbox/general_robotics_toolbox.py:subproblem4"]}
{"id": "C110", "title": "subproblem3 finds every well-conditioned angle in binary64", "statement": "If an angle s brings the sum of the two vectors to the wanted distance d, up to eta in the square, and the squared distance changes at the rate kap or faster at s, then subproblem3, if it returns, returns an angle within 4 (eta + 2^-24 M^2) / kap of s, up to whole turns. About a coordinate axis it does return. Where the rate is 0 the angle can be lost: two vectors of whole lengths along one line with sum exactly d give the empty list.", "quantifier": "all stored vectors up to M and axes within 2^-50 of a unit axis, M between 2^-380 and 2^380, both vectors at least 2^-20 M from the axis, kap at least 2^-17 M^2 and 64 eta M^2 at most kap^2; every summation order of dot, every math library with arccos and arctan2 within 2^-50", "why_tests_cant": "Tests compare the returned angles at a few elbows; that no solution is lost to rounding anywhere but near the stretched and the folded arm is a claim about all of them.", "anchors": ["src/general_robotics_toolbox/general_robotics_toolbox.py:subproblem3", "src/general_robotics_toolbox/general_robotics_toolbox.py:subproblem1", "src/general_robotics_toolbox/general_robotics_toolbox.py:subproblem0"]}
{"id": "C111", "title": "robot6_sphericalwrist_invkin finds every well-conditioned solution in binary64", "statement": "Let joint values a1..a6 take the robot exactly to the pose, away from singularities and from the joint limits. If robot6_sphericalwrist_invkin returns, called without last joints, then one of the returned vectors is those joint values up to whole turns: joint 1 within 2^-38 rho, joint 3 within 2^-21 rho, joint 2 within 2^-20 rho^2, joint 5 within 2^-16 rho^2 w, joint 4 within 2^-15 rho^2 w^2 and joint 6 within 2^-13 rho^2 w^2, where rho and w bound the conditioning of the arm and of the wrist.", "quantifier": "all stored opw robots with or without tool, flange and base, all poses, all exact solutions within 4 rad, M at least 1 and 1.002 times all lengths; the height of the wrist centre changes with joint 1 at M / rho or faster, its squared distance from the shoulder with joint 3 at M^2 / rho or faster, the centre is M / rho or more off the axis of joint 2, |sin a5| is at least 1 / w, rho w at most 31; limits absent or 2^-13 rho^2 w^2 away; every summation order of dot, every math library within the stated error", "why_tests_cant": "Tests look for known joint values among the results at a few poses; that rounding loses no solution in six nested searches, for any robot of the class, is a claim about all of them.", "anchors": ["src/general_robotics_toolbox/general_robotics_toolbox_invkin.py:robot6_sphericalwrist_invkin", "src/general_robotics_toolbox/general_robotics_toolbox.py:subproblem4", "src/general_robotics_toolbox/general_robotics_toolbox.py:subproblem3", "src/general_robotics_toolbox/general_robotics_toolbox.py:subproblem2", "src/general_robotics_toolbox/general_robotics_toolbox.py:subproblem1"]}
{"id": "C112", "title": "ur_invkin finds every well-conditioned solution in binary64", "statement": "Let joint values a1..a6 take the robot exactly to the pose, away from singularities and from the limits of every joint but the fifth. If ur_invkin returns, called without last joints, then one of the returned vectors is those joint values up to whole turns: joint 1 within 2^-38 rho, joints 2 and 4 within 2^-16 rho^2 w^3, joint 3 within 2^-18 rho w^3, joint 5 within 2^-22 w^2 and joint 6 within 2^-19 w^3, where rho and w bound the conditioning of the arm and of the wrist.", "quantifier": "all stored UR robots with or without tool, flange and base, all poses, all exact solutions within 4 rad, M at least 1 and 1.002 times all lengths; the height of the wrist centre changes with joint 1 at M / rho or faster, the squared reach with joint 3 at M^2 / rho or faster, the reach is M / rho or more off the axis of joint 2, |sin a5| is at least 1 / w, rho at most 31 and rho^2 w^3 at most 16000; limits absent, or 2^-16 rho^2 w^3 away from the joint values with those of joints 2 and 3 within a half turn either way and |a4| at most 2.8; every summation order of dot, every math library within the stated error", "why_tests_cant": "Tests look for known joint values among the results at a few poses; that rounding loses no solution in the nested loops, for any robot of the class, is a claim about all of them.", "anchors": ["src/general_robotics_toolbox/general_robotics_toolbox_invkin.py:ur_invkin", "src/general_robotics_toolbox/general_robotics_toolbox.py:subproblem4", "src/general_robotics_toolbox/general_robotics_toolbox.py:subproblem3", "src/general_robotics_toolbox/general_robotics_toolbox.py:subproblem2", "src/general_robotics_toolbox/general_robotics_toolbox.py:subproblem1"]}
{"id": "C113", "title": "slerp returns a point of the shorter arc in binary64", "statement": "Let p and q be the two quaternions divided by their exact lengths, p with the sign that makes the exact dot product at least -2^-47, and let th be the exact angle between them. Unless the computed cosine exceeds 1 (C80), slerp returns four entries, and either th is at most 1.1e-6 and each is the entry of p up to 2^-50, or th is at least 9e-7 and each is the entry of the exact point (sin((1-t) th) p + sin(t th) q) / sin th up to 2^-44 / sin th.", "quantifier": "all pairs of finite quaternions with entries up to 2^400 and squared lengths from 2^-800, all t in [0, 1], every summation order of dot, every math library within the stated error", "why_tests_cant": "Tests compare the length or a few known rotations; how far rounding moves the result from the arc, as the angle shrinks to the threshold of the shortcut, is a statement about all pairs.", "anchors": ["src/general_robotics_toolbox/general_robotics_toolbox.py:slerp"]}
{"id": "C114", "title": "with last_joints the inverse kinematics programs return the nearby solution in binary64", "statement": "Let an exact solution lie within 5/4 rad of last_joints joint by joint, inside the limits with room to spare and away from singularities. Then robot6_sphericalwrist_invkin and ur_invkin, called with last_joints, return a vector that is this solution with no whole turns added, up to the errors of C111 and C112 (the fifth joint of ur_invkin, which is not normalised, up to whole turns).", "quantifier": "all robots and poses of C111 and C112, all last_joints, every sorting function that returns a permutation of the indices, every summation order of dot, every math library within the stated error", "why_tests_cant": "Tests follow one trajectory; that neither the choice of candidates close to last_joints, nor the sorting, nor the whole turns of the normaliser loses the nearby solution is a statement about all poses and all last_joints.", "anchors": ["src/general_robotics_toolbox/general_robotics_toolbox_invkin.py:robot6_sphericalwrist_invkin", "src/general_robotics_toolbox/general_robotics_toolbox_invkin.py:ur_invkin", "src/general_robotics_toolbox/general_robotics_toolbox_invkin.py:normalize_joints"]}
{"id": "C115", "title": "with last_joints the inverse kinematics programs list solutions nearest first in binary64", "statement": "For robots with limits of up to 1024 rad, each vector that robot6_sphericalwrist_invkin or ur_invkin returns is no farther from last_joints than any later one: the exact distances satisfy d_i <= (1 + 2^-44) d_j + 2^-440. When an exact solution lies near last_joints as in C114, robot6_sphericalwrist_invkin returns a non-empty list, and its first vector is no farther from last_joints than that solution, up to its error.", "quantifier": "all robots, poses and last_joints of up to 1024 rad, every math library (the first vector: those of C114), every sorting function that puts finite keys in order, every summation order of dot", "why_tests_cant": "Tests look at one call; that rounding of the differences, of the sum and of the square root never changes the order by more than a rounding error is a statement about all vectors.", "anchors": ["src/general_robotics_toolbox/general_robotics_toolbox_invkin.py:robot6_sphericalwrist_invkin", "src/general_robotics_toolbox/general_robotics_toolbox_invkin.py:ur_invkin"]}
{"id": "C116", "title": "forward kinematics takes the output of inverse kinematics back to the pose in binary64", "statement": "fwdkin of a robot with six rotary joints returns finite numbers for all finite joint values inside the limits, and the pose moves every point to within 2^-37 (M + |u|) of its exact place. Each vector that robot6_sphericalwrist_invkin returns for a robot with limits passes the limit check of fwdkin, and away from singularities fwdkin returns the requested pose up to sqrt(eps) + rho 2^-21 (M + |u|). For ur_invkin the same holds with ignore_limits; with the limits checked fwdkin can raise AssertionError on what ur_invkin returned.", "quantifier": "all robots, poses, joint values and conditions rho up to 1000 (the limit check: every math library), every summation order of dot", "why_tests_cant": "Tests call the two functions one after the other for a handful of poses; that the round trip never raises and never drifts further than the stated bound is a statement about all poses.", "anchors": ["src/general_robotics_toolbox/general_robotics_toolbox.py:fwdkin", "src/general_robotics_toolbox/general_robotics_toolbox_invkin.py:robot6_sphericalwrist_invkin", "src/general_robotics_toolbox/general_robotics_toolbox_invkin.py:ur_invkin"]}
{"id": "C117", "title": "comparison and inverse of Transforms in binary64", "statement": "a == b holds exactly when every entry of a is within 1e-8 + 1e-6 |y| of the entry y of b, up to a factor of 1 +- 2^-50, and a.isclose(b, tol) when it is within tol + 1e-5 |y|; a Transform equals itself unless it holds a NaN; an infinite entry matches only the same infinity, a NaN nothing. T * T.inv() and T.inv() * T move every point u by at most 2^-41 (M + |u|) and compare equal to the identity when M is at most 2^15; T.inv().inv() returns the rotation bit for bit and the position up to 2^-42 M. isclose accepts the pose that fwdkin computes from the output of inverse kinematics when tol covers the error of C116. For large positions T * T.inv() does not compare equal to the identity.", "quantifier": "all Transforms with finite entries of moderate size (equality with itself: every Transform), every summation order of dot", "why_tests_cant": "Whether == forgives the rounding of T * T.inv() depends on the size of the position; tests use positions near 1.", "anchors": ["src/general_robotics_toolbox/general_robotics_toolbox.py:Transform.__eq__", "src/general_robotics_toolbox/general_robotics_toolbox.py:Transform.isclose", "src/general_robotics_toolbox/general_robotics_toolbox.py:Transform.inv", "src/general_robotics_toolbox/general_robotics_toolbox.py:identity_transform", "src/general_robotics_toolbox/general_robotics_toolbox_invkin.py:robot6_sphericalwrist_invkin", "src/general_robotics_toolbox/general_robotics_toolbox_invkin.py:ur_invkin"]}
{"id": "C118", "title": "equivalent_configurations of whole robots in binary64", "statement": "equivalent_configurations lists, for each given configuration, exactly the vectors in which some rotary joints (at least one) take another value among the whole-turn alternatives of that joint, in every combination, and nothing else. Each listed vector agrees with the configuration up to whole turns of rotary joints and an error of 2^-37, differs from it in some joint by more than 5 rad, keeps the limits up to 2^-39 and takes a robot with six rotary joints to the same pose up to 2^-34 (M + |u|) at the point u; alternatives of what robot6_sphericalwrist_invkin returned reach the pose asked for. Every choice of turns that keeps within the limits by 2^-41 is listed. With last_joints the vectors come nearest first up to rounding, and the call fails with ValueError exactly when there are none. It also fails with ValueError when a rotary joint can turn towards one limit and its distance to the other is infinite or undefined. An alternative can exceed a limit by rounding, and fwdkin then refuses it.", "quantifier": "all robots and configurations (the description of the list: every arithmetic; the bounds: joint values and limits up to 1024, every summation order of dot)", "why_tests_cant": "The alternatives multiply with the number of joints and the numbers of turns; a test compares single values, not the whole list nor the rounding at the limits.", "anchors": ["src/general_robotics_toolbox/general_robotics_toolbox_invkin.py:equivalent_configurations", "src/general_robotics_toolbox/general_robotics_toolbox.py:fwdkin"]}
{"id": "C119", "title": "hat, invhat, screw_matrix and quatjacobian in binary64", "statement": "invhat(hat(k)) is k bit for bit (infinities, NaN and signed zeros included) unless an entry reaches 2^1023 in size, where it overflows. invhat of any matrix with entries up to 2^998 is within 3 u relative + 3 e of half the differences of its entries. hat(k) applied to v is within 7 u sizes + 10 e of k x v; applied to k itself it gives exactly 0 in every order of summation without fused multiply-add (entries up to 2^400), and with it the rounding error of a product can be left over. screw_matrix is exact. The product of the screw matrices of a and b has exactly the values of the screw matrix of the rounded sum of a and b, whatever the order of summation, and the screw matrices of a and -a are inverse exactly. A wrench moved by it keeps its force exactly and has torque t + r x f up to 13 u sizes + 20 e; a twist moved by the transpose keeps its angular velocity exactly and has velocity v + w x r up to the same error (u = 2^-53, sizes the sum of the absolute values of the products, e the underflow unit). quatjacobian is exact when no entry is below 2^-1021 without being 0; the quaternion rate it gives is within 21/2 u W + 10 e of the exact one and tangent to the quaternion up to four times that.", "quantifier": "all vectors of binary64 numbers (screw products: entries up to 2^998; moved wrenches and twists, rates: results finite; rates: entries of q up to 1), every summation order of dot", "why_tests_cant": "Exactness in every order of summation and for every bit pattern cannot be seen from sampled vectors; tests compare with a tolerance.", "anchors": ["src/general_robotics_toolbox/general_robotics_toolbox.py:hat", "src/general_robotics_toolbox/general_robotics_toolbox.py:invhat", "src/general_robotics_toolbox/general_robotics_toolbox.py:screw_matrix", "src/general_robotics_toolbox/general_robotics_toolbox.py:quatjacobian"]}
