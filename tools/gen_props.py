#!/usr/bin/env python3
"""Writes /verif/properties.jsonl.  One entry per property: id, title, statement, quantifier, why_tests_cant, anchors."""
import json
G = "src/general_robotics_toolbox/general_robotics_toolbox.py"
K = "src/general_robotics_toolbox/general_robotics_toolbox_invkin.py"
U = "src/general_robotics_toolbox/urdf.py"
RR = "src/general_robotics_toolbox/robotraconteur.py"
M = "src/general_robotics_toolbox/ros_msg.py"
TF = "src/general_robotics_toolbox/ros_tf.py"
T = "src/general_robotics_toolbox/tesseract.py"
P = []
def p(title, statement, quantifier, why, *anchors):
    P.append(dict(id="C%02d" % (len(P) + 1), title=title, statement=statement, quantifier=quantifier,
                  why_tests_cant=why, anchors=list(anchors)))
CONT = "The input space is a continuum; a test samples finitely many points of it."

p("hat is the cross-product matrix and invhat inverts it",
  "hat(k) applied to v is the cross product k x v; hat(k) is skew-symmetric; invhat(hat(k)) = k; hat(invhat(S)) = S for every skew-symmetric S; on a general matrix invhat returns the axial vector of its skew part.",
  "all 3-vectors k, v and all 3x3 matrices", CONT, G+":hat", G+":invhat")
p("rot(k, theta) is the rotation by theta about k",
  "For every unit axis, rot(k,theta) is orthogonal with determinant +1, maps every vector v to cos(theta) v + sin(theta) k x v + (1-cos(theta))(k.v)k, leaves k fixed, preserves lengths, and has trace 1+2cos(theta).",
  "all unit vectors k, all real angles theta, all vectors v", CONT, G+":rot")
p("rot about one axis is a one-parameter group with period 2 pi",
  "rot(k,0)=I, rot(k,a)rot(k,b)=rot(k,a+b), rot(k,-a)=rot(k,a)^T=rot(-k,a), and rot(k,a)=rot(k,b) exactly when a-b is an integer multiple of 2 pi.",
  "all unit axes and all pairs of angles", CONT, G+":rot")
p("R2rot inverts rot away from its singular threshold",
  "For every rotation matrix whose rotation angle has sine at least 1e-6, R2rot returns a unit axis and an angle in (0,pi) whose rot is exactly the input.",
  "all rotation matrices with |sin theta| >= 1e-6", CONT, G+":R2rot", G+":invhat", G+":rot")
p("R2rot near the identity is within a stated error",
  "For every rotation matrix with |sin theta| < 1e-6 and cos theta > 0, R2rot returns axis [0,0,1] and angle 0, and the input differs from the identity by at most 2e-6 in every entry.",
  "all rotation matrices in that neighbourhood of the identity", CONT, G+":R2rot")
p("R2rot recovers half-turn rotations",
  "For every rotation by exactly pi about a unit axis, R2rot returns angle pi and a unit axis whose half turn is the input matrix.",
  "all unit axes", "The failing set (axes with x component at most 1e-6 and both other components non-zero) has measure zero and is only reached by exact half turns.", G+":R2rot")
p("q2R maps unit quaternions to rotations and is a homomorphism",
  "For unit quaternions q2R(q) is a rotation matrix, q2R(-q)=q2R(q), q2R(quatproduct(q1) q2)=q2R(q1) q2R(q2), q2R(quatcomplement(q)) is the transpose, and q2R(q) v is the vector part of q v q*.",
  "all unit quaternions and all vectors", CONT, G+":q2R", G+":quatproduct", G+":quatcomplement")
p("quatproduct is the Hamilton product",
  "quatproduct(q1) q2 is the Hamilton product of q1 and q2; it is associative, norms multiply, [1,0,0,0] is neutral and q times its complement is |q|^2.",
  "all quaternions (not only unit ones)", CONT, G+":quatproduct", G+":quatcomplement")
p("R2q never fails on a rotation and inverts q2R",
  "For every rotation matrix R2q takes no square root of a negative number, divides by no zero, returns a unit quaternion, and q2R(R2q(R)) = R; for every unit quaternion R2q(q2R(q)) is q or -q.",
  "all rotation matrices, all four branches; all unit quaternions", "Branch boundaries (trace 0, equal diagonal entries) are measure-zero sets a random test does not hit.", G+":R2q", G+":q2R")
p("rot2q and q2R agree with rot",
  "For every unit axis and angle rot2q returns a unit quaternion and q2R(rot2q(k,theta)) = rot(k,theta).",
  "all unit axes and angles", CONT, G+":rot2q", G+":q2R", G+":rot")
p("q2rot returns an axis-angle pair for the same rotation",
  "For every unit quaternion q2rot returns a unit axis and an angle in [0,2 pi] with rot(k,theta) equal to q2R(q), up to the 1e-6 identity threshold.",
  "all unit quaternions", "The failing point q=[-1,0,0,0] is a single point.", G+":q2rot")
p("quatjacobian gives the quaternion rate",
  "If a unit quaternion curve satisfies dq/dt = quatjacobian(q) w, then the rotation q2R(q) satisfies dR/dt = hat(w) R, |q|^2 stays stationary, and quatjacobian(q) w is half the Hamilton product of (0,w) and q.",
  "all differentiable unit-quaternion curves and angular velocities", "A statement about derivatives along every curve.", G+":quatjacobian", G+":q2R", G+":hat")
p("rpy2R and R2rpy are mutually inverse away from gimbal lock",
  "rpy2R(r,p,y) = Rz(y)Ry(p)Rx(r) is a rotation; for r,y in (-pi,pi] and p in (-pi/2,pi/2) with cos p above the guard R2rpy returns exactly (r,p,y); for every rotation matrix that passes the guard rpy2R(R2rpy(R)) = R with pitch in (-pi/2,pi/2); otherwise R2rpy raises.",
  "all angle triples and all rotation matrices", CONT, G+":rpy2R", G+":R2rpy")
p("slerp stays on the unit sphere and interpolates along the geodesic",
  "For non-zero quaternions and t in [0,1] slerp returns a unit quaternion; at t=0 it is the (possibly negated) normalised first argument and at t=1 the normalised second; in between the rotation is the first rotation followed by t times the relative rotation about one fixed axis; negating either argument does not change the rotation unless the two quaternions are orthogonal; t outside [0,1] raises.",
  "all non-zero quaternion pairs and all t", CONT, G+":slerp")
p("screw_matrix forms a group and preserves power",
  "screw_matrix(0)=I, screw_matrix(a)screw_matrix(b)=screw_matrix(a+b); moving a twist with the transpose and a wrench with the matrix leaves their power (inner product) unchanged, and the moved twist has linear part v + w x r.",
  "all displacement vectors, twists and wrenches", CONT, G+":screw_matrix")
p("Transform is the rigid-motion group",
  "Acting on points, (A*B) is A after B; * is associative, identity_transform() is neutral, and for rotation R the product with inv() on either side is the identity; products and inverses of rotations have rotation parts.",
  "all transforms with rotation parts and all points", CONT, G+":Transform.__mul__", G+":Transform.inv", G+":identity_transform")
p("Frame names follow composition and inversion",
  "A*B carries A's parent frame and B's child frame, inv() swaps them, and this holds through any product of any number of transforms.",
  "all transforms with any frame names, all product lengths", "Unbounded product lengths.", G+":Transform")
p("Transform equality is a tolerance relation",
  "T == U and T.isclose(U, tol) hold exactly when every entry of R and p satisfies the documented numpy closeness bound; equality is reflexive; it ignores frame names. Users expect == to be symmetric and isclose(tol) to bound the error by tol.",
  "all pairs of transforms and tolerances", "The asymmetry only shows in a thin shell of inputs.", G+":Transform.__eq__", G+":Transform.isclose")
p("Robot accepts exactly the well-formed descriptions",
  "Robot(...) succeeds exactly when H is 3xN with columns of norm within 1.001e-5 of one, P is 3x(N+1), every joint type is 0..3, there are N of them, and each supplied limit, inertia and name list has the right length; otherwise it raises; limits and the tool are stored only as complete pairs.",
  "all array shapes and contents", "Every combination of shapes and optional arguments.", G+":Robot.__init__")
p("fwdkin composes the joint motions in order",
  "For every robot without mobile joints and every joint vector, the returned pose maps each point x to base(P0 + M1(P1 + M2(... Pn + flange(tool(x))))) where Mi rotates about H_i by theta_i or translates along it.",
  "robots with any number of joints, all joint vectors, all points", "Unbounded chain length and continuous inputs.", G+":fwdkin", G+":apply_robot_aux_transforms")
p("fwdkin returns a rigid pose",
  "With unit axes and rotation-valued tool, flange and base, the rotation part returned by fwdkin is a rotation matrix.",
  "all robots of any length and all joint vectors", "Unbounded chain length.", G+":fwdkin")
p("Joint limits are enforced exactly",
  "With both limits present, fwdkin and robotjacobian raise exactly when some joint is strictly outside the closed interval; with _ignore_limits or without limits they never raise for limits, and the returned value does not depend on the limits.",
  "all robots and joint vectors", "Boundary values on every joint.", G+":fwdkin", G+":robotjacobian")
p("Auxiliary transforms can be applied and removed",
  "apply_robot_aux_transforms is T_base*T*T_flange*T_tool for whichever are present, unapply is its two-sided inverse, and fwdkin of a robot with auxiliary transforms is the transform applied to the bare robot's pose.",
  "all robots, all presence combinations, all poses", "All combinations and a continuum of poses.", G+":apply_robot_aux_transforms", G+":unapply_robot_aux_transforms", G+":fwdkin")
p("robotjacobian is the derivative of fwdkin",
  "For every robot with rotary and prismatic joints and every differentiable joint motion, J(theta) times the joint velocity is (w, v) where d/dt of fwdkin's position is v and d/dt of fwdkin's rotation is hat(w) times the rotation, including tool, flange and base.",
  "robots of any length, all joint vectors, all joint velocities", "A statement about limits and unbounded chain length.", G+":robotjacobian", G+":fwdkin")
p("robotjacobian has one column per joint",
  "The Jacobian has N columns for an N-joint robot; users rely on J @ qdot being well formed.",
  "all joint type sequences including mobile joints", "All type sequences.", G+":robotjacobian")
p("Whole turns of rotary joints do not change the pose or the Jacobian",
  "Adding integer multiples of 2 pi to any rotary joints leaves fwdkin and robotjacobian unchanged (limits ignored).",
  "all robots, joints and integer multiples", "Unbounded integers and chain lengths.", G+":fwdkin", G+":robotjacobian", K+":equivalent_configurations")
p("subproblem0 solves q = rot(k,theta) p for perpendicular vectors",
  "For unit k and non-zero p, q perpendicular to k, subproblem0 returns theta in (-pi,pi] with rot(k,theta) p/|p| = q/|q|; arguments that are not perpendicular to k are rejected.",
  "all such vectors", CONT, G+":subproblem0")
p("subproblem1 solves q = rot(k,theta) p, or the closest approximation",
  "For an axis k and p, q off the axis, subproblem1 returns theta with rot(k,theta) p = q whenever a solution exists (to within sqrt(eps)), and otherwise the angle that minimises |rot(k,theta)p - q|; a vector on the axis raises.",
  "all vectors and axes", CONT, G+":subproblem1")
p("subproblem2 solutions are correct",
  "Every pair returned by subproblem2 satisfies q = rot(k1,theta1) rot(k2,theta2) p for |p|=|q| and unit axes.",
  "all vectors and pairs of unit axes, including tangent cones", "The one-solution branch is entered only on a measure-zero set.", G+":subproblem2")
p("subproblem2 finds every solution",
  "If rot(k1,a) rot(k2,b) p = q then, up to whole turns, (a,b) is among the returned pairs; if nothing is returned no solution exists.",
  "all vectors, axes and angle pairs", CONT, G+":subproblem2")
p("subproblem3 solutions are correct",
  "Every angle returned by subproblem3 satisfies |q + rot(k,theta) p| = d.",
  "all vectors, unit axes and distances", CONT, G+":subproblem3")
p("subproblem3 finds every solution",
  "If |q + rot(k,a) p| = d then, up to whole turns, a is among the returned angles; an empty result means that no rotation reaches d.",
  "all vectors, unit axes, distances and angles", CONT, G+":subproblem3")
p("subproblem4 solutions are correct and complete",
  "Every angle returned by subproblem4 satisfies p.rot(k,theta) q = d, every solution is returned up to whole turns, and an unreachable d gives an empty list.",
  "all vectors, axes and displacements", CONT, G+":subproblem4")
p("normalize keeps joints strictly inside limits and equivalent",
  "The normalisation used by the inverse kinematics returns either nothing or an angle that differs from its input by whole turns and, with limits, lies strictly inside them; with last_joints the returned angle is the closest equivalent one inside the limits.",
  "all limits, angles and last joint values", CONT, K+":normalize_joints.normalize")
p("Candidate lists are ordered by distance to last_joints",
  "With last_joints given, each candidate list used by the inverse kinematics is a sub-list of the normalised candidates, sorted by distance; users rely on no valid candidate being lost.",
  "all candidate lists and last joints", "Unbounded lists.", K+":normalize_joints.__call__")
p("robot6_sphericalwrist_invkin returns only solutions",
  "For an OPW robot every returned joint vector reproduces the desired pose under fwdkin (to within the sqrt(eps) shortcuts of the subproblems).",
  "all OPW geometries, tools, bases and poses", CONT, K+":robot6_sphericalwrist_invkin", G+":fwdkin")
p("robot6_sphericalwrist_invkin respects joint limits",
  "With limits present every returned joint lies strictly inside its limits, so fwdkin accepts every returned vector.",
  "all robots and poses", CONT, K+":robot6_sphericalwrist_invkin")
p("robot6_sphericalwrist_invkin returns solutions nearest first",
  "With last_joints the result is sorted by distance to last_joints and its first entry is the closest.",
  "all robots, poses, last joints", CONT, K+":robot6_sphericalwrist_invkin")
p("robot6_sphericalwrist_invkin reports unreachable poses by an empty list",
  "A pose that cannot be reached gives an empty list.",
  "all robots and unreachable poses, with and without limits and last_joints", "Needs a proof that no joint vector reaches the pose.", K+":robot6_sphericalwrist_invkin", G+":subproblem4")
p("robot6_sphericalwrist_invkin finds every solution",
  "Without last_joints, every joint vector inside the limits (generic position) that reaches the pose is returned up to whole turns.",
  "all OPW geometries and joint vectors", CONT, K+":robot6_sphericalwrist_invkin")
p("robot6_sphericalwrist_invkin does not change the robot's kinematics",
  "The call rewrites columns of robot.P in place; after any sequence of calls, including ones that raise, fwdkin of the robot is unchanged for every joint vector, and a second call rewrites nothing.",
  "all robots and all call histories", "Unbounded call histories.", K+":robot6_sphericalwrist_invkin", G+":fwdkin")
p("ur_invkin returns only solutions",
  "For a UR robot every returned joint vector reproduces the desired pose under fwdkin.",
  "all UR geometries, tools, bases and poses", CONT, K+":ur_invkin", G+":fwdkin")
p("ur_invkin respects joint limits",
  "With limits present every returned joint lies inside its limits.",
  "all robots and poses", CONT, K+":ur_invkin")
p("equivalent_configurations lists exactly the whole-turn alternatives",
  "For a configuration inside the limits the result is exactly the set of other configurations that differ by whole turns on rotary joints and stay inside the closed limits, each once.",
  "all robots, limits and configurations", "Exponentially many combinations, unbounded ranges.", K+":equivalent_configurations")
p("equivalent_configurations returns only additional configurations",
  "No returned configuration is already in the input list.",
  "all input lists", "All input lists.", K+":equivalent_configurations")
p("equivalent_configurations preserves the pose and the limits",
  "Every returned configuration has the same forward kinematics as its source and is accepted by fwdkin's limit check.",
  "all robots, limits and configurations", CONT, K+":equivalent_configurations", G+":fwdkin")
p("iterative_invkin: converged means the pose is reached",
  "If iterative_invkin reports convergence, the returned joints' pose is within the stated tolerance of the desired pose (position error in each coordinate and sin(half rotation error) below tol).",
  "all robots, poses, seeds, gains, tolerances and step counts; any pseudo-inverse", "Unbounded iteration counts.", K+":iterative_invkin", G+":R2rot")
p("iterative_invkin takes at most max_steps steps and stays near the seed",
  "The loop performs at most max_steps iterations, stops at the first one that meets the tolerance, and each returned rotary joint is the representative within pi of the seed.",
  "all inputs and step counts", "Unbounded iteration counts.", K+":iterative_invkin", K+":normalize_joints")
p("A robot loaded from URDF has the URDF's forward kinematics",
  "For every chain of fixed, revolute and prismatic joints, fwdkin of the loaded robot equals the product of the URDF joint origins and joint motions along the chain, for every joint vector.",
  "URDF chains of any length with any mixture of fixed and moving joints", "Unbounded chain length.", U+":_robot_from_urdf_robot", U+":_rpy_to_rot", G+":fwdkin")
p("URDF loading selects the chain",
  "Without tip_link loading succeeds only if exactly one leaf link is reachable from the root by a chain without floating joints and with a moving joint, and uses it; the joint list is the non-fixed joints from root to tip in order.",
  "all link trees", "All trees.", U+":_robot_from_urdf_robot")
p("URDF limits are loaded all or nothing and unsupported joints are rejected",
  "Position limits are kept only if every moving joint has them, likewise velocity and effort limits; a moving joint other than revolute or prismatic raises.",
  "all chains", "All mixtures.", U+":_robot_from_urdf_robot")
p("URDF spatial inertia gives the link's kinetic energy",
  "The 6x6 matrix built from a URDF inertial element is symmetric and its quadratic form on a twist is the kinetic energy of the body (parallel-axis theorem).",
  "all masses, centres of mass, inertia tensors and twists", CONT, U+":_convert_inertial")
p("load_robot_info_yaml_to_robot reads the chain's own joints",
  "Loading chain c uses joint_info[joint_numbers[i]] for joint i's type, limits and name.",
  "all documents and chain numbers", "All documents.", RR+":load_robot_info_yaml_to_robot")
p("load_robot_info_yaml_to_robot rejects malformed documents and otherwise loads what is written",
  "Missing required keys, wrong H/P lengths, non-increasing or out-of-range joint numbers, unknown joint types and null limits raise; otherwise H, P, limits, flange, tool and base are those of the document.",
  "all documents", "All documents.", RR+":load_robot_info_yaml_to_robot")
p("The tool loader changes only the tool",
  "load_robot_and_tool_info_yaml_to_robot returns the robot of load_robot_info_yaml_to_robot with exactly the tool transform and the tip link name replaced.",
  "all document pairs", "All documents.", RR+":load_robot_and_tool_info_yaml_to_robot")
p("ROS vector, quaternion, twist and wrench messages round-trip",
  "Converting to a message and back is the identity in both directions, with quaternions w-first and twists/wrenches angular/torque first in the array.",
  "all arrays over any scalar type (including NaN)", "All values.", M+":q2msg", M+":msg2q", M+":p2msg", M+":twist2msg", M+":wrench2msg")
p("ROS transform messages round-trip",
  "A transform with rotation part converted to Transform, Pose, TransformStamped or PoseStamped and back has the same rotation and position; frame names survive where the message has a field for them; None becomes the empty string.",
  "all transforms and frame names", CONT, M+":transform2msg", M+":msg2transform")
p("msg2transform dispatches on the message's fields",
  "Each of the four message types is read from its own fields; any other object raises.",
  "all message objects", "All objects.", M+":msg2transform")
p("tf lookups are re-ordered into w-first quaternions and named frames",
  "lookupTransform returns the transform whose rotation is that of the listener's x,y,z,w quaternion, whose parent is the target frame and whose child is the source frame; composing lookups names frames consistently.",
  "all listener answers", CONT, TF+":TransformListener.lookupTransform")
p("robot_to_scene_graph builds a kinematically equivalent scene graph",
  "Walking the created scene graph from base_link to the last link reproduces fwdkin of the robot without its base transform, for every joint vector; with the world joint it reproduces fwdkin.",
  "robots with any number of rotary and prismatic joints, all joint vectors", "Unbounded chain length.", T+":robot_to_scene_graph", T+":get_link_and_joint", T+":get_robot_world_to_base_joint", G+":fwdkin")
p("robot_to_scene_graph returns a serial chain with the documented names",
  "The created links are base_link, link_1..link_N, chain_tip and, when present, flange and tool_tcp, each attached to the previous one; the returned name lists are exactly these and the environment prefixes all of them with the robot name.",
  "robots with any number of joints", "Unbounded chain length.", T+":robot_to_scene_graph", T+":robot_to_tesseract_env_commands", T+":_prefix_names")
p("robot_to_ur_inv_kin_parameters accepts the UR robots that ur_invkin accepts",
  "Both UR axis layouts accepted by ur_invkin are accepted and the returned DH parameters describe the robot.",
  "all UR geometries", CONT, T+":robot_to_ur_inv_kin_parameters", K+":ur_invkin")
p("The closed-form inverse kinematics raises only documented kinds of errors",
  "For well-formed OPW and UR robots and 6-entry last_joints, the two solvers either return a list or raise AssertionError, or ValueError when last_joints is given and nothing is found; in regular positions no assertion fails.",
  "all OPW and UR geometries, all rigid poses, any limits", CONT, K+":robot6_sphericalwrist_invkin", K+":ur_invkin")
p("ur_invkin finds every solution",
  "Without last_joints, every joint vector inside the limits (generic position) that reaches the pose is returned up to whole turns.",
  "all UR geometries, all poses and joint vectors", CONT, K+":ur_invkin")
p("Tracking: a solution near last_joints is found",
  "If a regular joint vector inside the limits reaches the pose and each of its joints is within a quarter turn of last_joints, then it is in the returned list, exactly (not just up to whole turns), and the first entry is at least as close to last_joints.",
  "all OPW and UR geometries, all poses, all last_joints", CONT, K+":robot6_sphericalwrist_invkin", K+":ur_invkin", K+":normalize_joints")
p("ur_invkin reports unreachable poses by an empty list",
  "A pose that cannot be reached gives an empty list.",
  "all UR geometries, all rigid poses, any limits", CONT, K+":ur_invkin")
p("iterative_invkin returns a result for every seed of the right length",
  "For a robot with rotary and prismatic joints, a rigid pose and a seed with one entry per joint, iterative_invkin returns a result (no exception) whenever the pseudo-inverse does.",
  "all robots, poses, seeds, gains, tolerances and step counts", "Unbounded iteration counts.", K+":iterative_invkin")
p("The M matrices of a robot loaded from URDF belong to its bodies",
  "The i-th 6x6 matrix gives the kinetic energy of the body moved by joint i: the links joined to it by fixed joints, in the frame of its first link.",
  "all link trees and all mass distributions", "Unbounded chain length and a continuum of masses.", "src/general_robotics_toolbox/urdf.py:_robot_from_urdf_robot", "src/general_robotics_toolbox/urdf.py:_append_inertia", "src/general_robotics_toolbox/urdf.py:_convert_inertial")
p("Loading a URDF terminates",
  "For every set of links and joints with unique names and parents, _robot_from_urdf_robot returns or raises.",
  "all link graphs", "A test cannot observe that a call never returns.", "src/general_robotics_toolbox/urdf.py:_robot_from_urdf_robot")
p("Messages and lookups give rotations exactly for unit quaternions",
  "msg2transform and lookupTransform return a rigid transform for every message whose quaternion is not zero.",
  "all messages and listener answers", "A continuum of quaternions; generators produce normalised ones.", "src/general_robotics_toolbox/ros_msg.py:msg2transform", "src/general_robotics_toolbox/ros_tf.py:TransformListener.lookupTransform", G+":q2R")
p("A robot loaded from a Robot Raconteur document moves as the document says",
  "For unit axes, fwdkin of the loaded robot accepts every joint vector inside the limits and composes the document's joints, flange, tool and base; all joints are rotary or prismatic and have limits.",
  "all documents, all joint vectors", "Unbounded documents and a continuum of joint vectors.", "src/general_robotics_toolbox/robotraconteur.py:load_robot_info_yaml_to_robot", G+":fwdkin")
p("robot_to_opw_inv_kin_parameters returns parameters that describe the robot",
  "Every robot of OPW structure with the required flange that is outstretched along x or z at zero is accepted and the OPW arm with the returned parameters (up to rounding) moves as the robot.",
  "all OPW geometries, axis signs and joint vectors", CONT, "src/general_robotics_toolbox/tesseract.py:robot_to_opw_inv_kin_parameters")
p("The kinematics plugin information is consistent",
  "Without override the chosen solver is the default, it is one of the four supported ones and is configured with links of the environment; unknown solvers are refused; an override in the documented form is used.",
  "all robots, names, solvers and overrides", "Unbounded chains; strings and dicts of any size.", "src/general_robotics_toolbox/tesseract.py:kinematics_plugin_info_dict", "src/general_robotics_toolbox/tesseract.py:robot_to_tesseract_env_commands", "src/general_robotics_toolbox/tesseract.py:tesseract_kinematics_information")
p("The closed-form solvers are configured between the right links",
  "For OPWInvKin and URInvKin the environment carries the configured tip link, seen from the configured base link, as the arm with the configured parameters.",
  "all OPW and UR geometries, all joint vectors", CONT, "src/general_robotics_toolbox/tesseract.py:kinematics_plugin_info_dict", "src/general_robotics_toolbox/tesseract.py:robot_to_tesseract_env", "src/general_robotics_toolbox/tesseract.py:robot_to_opw_inv_kin_parameters", "src/general_robotics_toolbox/tesseract.py:robot_to_ur_inv_kin_parameters")
p("TesseractRobot agrees with the Python solvers",
  "Given a library that places the links correctly, fwdkin, jacobian and invkin of TesseractRobot agree with fwdkin and robotjacobian of the robot.",
  "robots with any number of rotary and prismatic joints, all joint vectors, poses and link names", "Unbounded chain length.", "src/general_robotics_toolbox/tesseract.py:TesseractRobot.fwdkin", "src/general_robotics_toolbox/tesseract.py:TesseractRobot.jacobian", "src/general_robotics_toolbox/tesseract.py:TesseractRobot.invkin", G+":fwdkin", G+":robotjacobian")
p("Rounding errors of fwdkin stay bounded along the chain",
  "In binary64 arithmetic, with any order of summation in the dot products and a math library whose sin and cos are within 2^-52, fwdkin raises exactly when the exact one does and a finite result differs from the exact pose by at most (n+3)(100 d + 2^-42) in the rotation and that times the span of the arm in the position, d being the deviation of the stored axes, tools and base from exact ones.",
  "chains of any length, all finite joint vectors, all finite parameters", "Unbounded chain length and all binary64 inputs; a test sees a handful of values and one library.", G+":fwdkin", G+":rot")
p("Rounding errors of products of Transforms stay bounded",
  "A product of any number of transforms computed in binary64 differs from the exact product of the exact transforms by at most (1+len)(3d + 2^-46), relative to the reach of the transforms.",
  "lists of transforms of any length", "Unbounded length and all binary64 inputs.", G+":Transform.__mul__")
p("Axes accepted by Robot that are only nearly of unit length change fwdkin little",
  "Robot accepts axes within 1e-5 of unit length; fwdkin then differs from that of the robot with normalised axes by at most 2.1e-4 (n+3), relative to the span of the arm.",
  "robots with any number of joints, all joint vectors", CONT, G+":Robot.__init__", G+":fwdkin")
p("subproblem1 accepts valid arguments in binary64",
  "If exact arithmetic finds the rotation of p into q about k, so does the code in binary64.",
  "all binary64 vectors", "All binary64 vectors.", G+":subproblem1", G+":subproblem0")
p("slerp returns finite quaternions in binary64",
  "slerp of finite non-zero quaternions is finite for every t in [0,1].",
  "all binary64 quaternions", "All binary64 quaternions.", G+":slerp")
p("equivalent_configurations respects the limits in binary64",
  "Every alternative found for a joint value inside the limits lies inside the limits.",
  "all binary64 limits and joint values", "All binary64 numbers.", K+":equivalent_configurations")
p("subproblem3 finds the solution of a stretched arm in binary64",
  "If exact arithmetic finds a solution of |q + rot(k,t)p| = d, so does the code in binary64.",
  "all binary64 vectors and distances", "All binary64 vectors.", G+":subproblem3")
p("R2rot of a computed half turn is finite in binary64",
  "For every axis of unit length (up to rounding) R2rot(rot(k, pi)) consists of finite numbers.",
  "all binary64 unit axes", "All binary64 axes.", G+":R2rot", G+":rot")
p("ur_invkin answers only for UR robots",
  "Unless the robot has six axes that agree with one of the two UR layouts up to the tolerance of np.allclose, ur_invkin raises for every pose: AssertionError for six (or one) axes, ValueError otherwise.",
  "robots with any number of joints, all poses", CONT, K+":ur_invkin")
p("Redundant solutions of a TesseractRobot are the other configurations within the limits",
  "For a TesseractRobot, redundant_solutions(theta) lists every other joint vector that differs from theta by whole turns of rotary joints and respects the limits, nothing else, and none twice: the same set as equivalent_configurations of the robot. The kinematic group the answer comes from is determined by the environment.",
  "robots with any number of joints, all joint vectors", CONT, T+":redundant_solutions", T+":TesseractRobot.redundant_solutions")
p("Rounding errors of the Jacobian stay bounded",
  "In binary64 arithmetic robotjacobian raises exactly the errors of the exact computation, and each finite column differs from the exact one by at most err in the angular part and err (1 + 2 span) in the linear part, err = (2n+3)(100 d + 2^-42) and the span being the lengths of links, strokes, flange and tool; with mobile joints the bound is 48 times as large. The same program text over the reals is the exact Jacobian.",
  "robots with any number of joints of all types, all finite joint vectors", "Unbounded chain length and all binary64 inputs; a test sees a handful of values and one library.", G+":robotjacobian")
p("Normalised joint angles respect the limits exactly in binary64",
  "Every angle that normalize returns lies strictly between the limits as a binary64 number, with no rounding tolerance; the candidate list is never empty, so the only errors are indices out of range; None results exactly when the angle and its two neighbours a turn away are outside. The angle is the given one plus whole turns up to rounding, and without limits within half a turn of last_joints up to rounding.",
  "all binary64 angles (NaN and infinities included), limits, last_joints, argsort functions", "All binary64 numbers; rounding at a limit depends on single bits.", K+":normalize_joints")
p("Small changes of the joint values move the tool little",
  "Between two joint vectors no point of the tool moves further than the sum over the joints of the change times the length of the arm beyond the joint (times 1 for prismatic joints), and no direction turns by more than the sum of the changes; changes by whole turns do not count. Joint vectors normalised in binary64 therefore reach the same pose up to n 2^-53 (12 B + 64) times the arm length.",
  "robots with any number of joints, all joint vectors, tool points", CONT, G+":fwdkin", K+":normalize_joints")
p("The angle of subproblem1 is accurate in binary64",
  "Whenever subproblem1 answers in binary64, the answer is finite and either 0 with p and q closer than 2^-26 (plus rounding), or the rotation about k by it takes the direction of p, seen along the axis, to that of q up to 2^-31 r, r being the ratio of the size of the inputs to their distance from the axis (at most 2^20). If some rotation about k takes p to q, the answer does so up to 2^-26 + 2^-31 M, M being the size of the inputs. The only error is AssertionError.",
  "all binary64 vectors of size 2^-380 to 2^380 and axes of such a length", "All binary64 vectors; six summation orders; any math library within 2^-50.", G+":subproblem1", G+":subproblem0")
p("R2rot recovers axis and angle in binary64",
  "If a stored matrix has entries within e <= 2^-28 of the rotation by t in [0, pi] about a unit axis k with sin t >= 2^-19, R2rot returns finite numbers, the angle within 13e + 2^-44 of t and the axis within (6e + 2^-45)/sin t of k; for the matrix computed by rot from an axis within d <= 2^-34 of k the errors are at most 600d + 2^-40 and (300d + 2^-41)/sin t.",
  "all stored matrices and axes, all angles with sine at least 2^-19, every summation order of dot, every math library within the stated error", "All binary64 matrices.", G+":R2rot", G+":rot", G+":invhat")
p("iterative_invkin converges from seeds near a regular solution",
  "If the tool at the seed is within m <= 3/10 of the wanted pose (position, and sine of half the angle), the arm is at most M >= 1 long, and within 6cm of the seed the Jacobian has a right inverse of size c with M c^2 m <= 1/5, then iterative_invkin reports convergence within 200 steps at its default gains and tolerance, its answer is within 6cm of the seed and its pose within 2e-4 of the wanted one. In particular it converges from every seed within m/M of a solution.",
  "robots with any number of rotary and prismatic joints, all poses, seeds, tolerances from 2e-6, step counts", CONT, K+":iterative_invkin", G+":fwdkin", G+":robotjacobian", G+":R2rot")
p("Computed poses share no memory with their arguments",
  "The arrays of a product, an inverse, an identity, a fwdkin result or a pose changed by auxiliary transforms are new: later assignments to the arguments do not change them and assignments to them do not change the arguments. Transform(R, p) copies R but keeps p, so a later change of p always changes the pose; for robots without tool, flange and base the auxiliary transforms return the very pose they are given. On values the functions agree with the model without memory.",
  "all memories, arrays (also views), poses, robots, sequences of later assignments", "Aliasing bugs show only for the caller who changes an array later; the theorem quantifies over all later assignments.", G+":Transform", G+":fwdkin", G+":apply_robot_aux_transforms", G+":unapply_robot_aux_transforms")
p("robot6_sphericalwrist_invkin changes only the array P, and who shares P notices",
  "When P overlaps neither H nor the pose, the call returns what the model on values returns and changes no cell outside P, also when it raises. Robots not using this array keep all their data; robots built on the same H and P (other tool, limits, base) keep their forward kinematics and Jacobian; a robot sharing only P with other axes moves.",
  "all memories, robots of any size, poses, other robots on the same or other arrays", "All ways of sharing arrays between robots.", K+":robot6_sphericalwrist_invkin", G+":Robot")
p("random_R returns rotations with non-negative axis",
  "For all draws of np.random.rand except four zeros random_R returns a rotation, and the rotations it can return are exactly those by an angle in [0, pi] about an axis with no negative component; the other rotations are never drawn. random_transform adds a position in [0,1)^3.",
  "all draws; all rotations", "A finite sample cannot show that a rotation is never drawn.", G+":random_R", G+":random_p", G+":random_transform")
p("The text of a Transform determines its frame names",
  "If the names contain no double quote, two Transforms with the same repr (or the same str) have the same parent_frame_id and child_frame_id, whatever texts numpy gives for the arrays (without double quotes); with double quotes in a name two different Transforms have the same repr.",
  "all transforms, frame names, array formatting functions", CONT, G+":Transform.__repr__", G+":Transform.__str__")
p("A robot loaded from a file can be used with TesseractRobot and the inverse kinematics as the file says",
  "TesseractRobot accepts a robot loaded from a file, and its forward kinematics is that of the file; the joint values returned by robot6_sphericalwrist_invkin for a robot loaded from URDF reach the pose in the URDF's own kinematics.",
  "all URDF and Robot Raconteur documents, chains of any length, poses, joint values", "Joins two loaders, the kinematics and the exporter over all documents; the tests exercise each part alone.", U+":_robot_from_urdf_robot", T+":robot_to_scene_graph", T+":TesseractRobot", K+":robot6_sphericalwrist_invkin")
p("R2q returns the quaternion of the rotation in binary64",
  "For every stored matrix with entries within e <= 1/64 of a rotation Q, R2q does not raise and returns four finite numbers within 3e + 18*2^-53 of a unit quaternion of Q: no branch of the case distinction loses accuracy, also at and near half turns and where two branches meet.",
  "all rotations, all matrices stored with entries within 1/64 of them, any summation order", "All binary64 matrices; the hard cases are where the branches of R2q meet and the trace is near 0.", G+":R2q")
p("q2R is accurate in binary64 and inverts R2q both ways",
  "For a stored quaternion within d <= 1/16 of a unit quaternion q the entries of q2R are within 7.5 d + 40*2^-53 of the rotation of q. R2q followed by q2R returns a matrix stored within e up to 23e + 2^-45; q2R followed by R2q returns a quaternion stored within d, or its negative, up to 23d + 2^-45.",
  "all unit quaternions and rotations and their stored forms, every summation order of dot", "All binary64 quaternions and matrices.", G+":q2R", G+":R2q")
p("quatproduct, quatcomplement and rot2q are accurate in binary64",
  "quatproduct(q).dot(p) on stored unit quaternions is within 4.25 d + 13*2^-53 of the Hamilton product and its q2R within 32d + 2^-45 of the product of the rotations; quatcomplement is exact; rot2q is within d + 8*2^-53 of the quaternion of the rotation and q2R of it within 7.5 d + 2^-46 of rot(k, theta).",
  "all stored unit quaternions and axes, angles up to 8 in size, every summation order of dot, every math library with sin and cos within 2^-52", "All binary64 quaternions.", G+":quatproduct", G+":quatcomplement", G+":rot2q", G+":q2R")
p("A pose survives repeated conversion to a ROS message and back",
  "Converting a Transform to a geometry_msgs message and back n times in binary64 leaves the position unchanged and the rotation up to an error proportional to e + n 2^-52.",
  "all poses and their stored forms, numbers of conversions, every summation order of dot", "The error doubles or triples in each conversion for some angles and stays at rounding level for others; a test of one round trip passes.", "src/general_robotics_toolbox/ros_msg.py:transform2msg", "src/general_robotics_toolbox/ros_msg.py:msg2transform", G+":R2q", G+":q2R")
p("Roll, pitch and yaw are accurate in binary64",
  "rpy2R of stored angles is within 2^-44 of the rotation. R2rpy of a matrix stored within e of a rotation with pitch p either raises AssertionError or returns the angles up to whole turns, and rpy2R of them returns the matrix, up to an error proportional to e + 2^-50.",
  "all rotations and angles and their stored forms, every summation order of dot, every math library within 2^-50", "All binary64 matrices; the loss of accuracy is near the vertical, where the assertion does not yet fire.", G+":rpy2R", G+":R2rpy", U+":_rpy_to_rot")
p("The URDF loaders read the file of the package and build the robot of the document",
  "With a package, robot_from_xml_file and robot_from_xacro_file read a file inside the package directory, whatever the name; file, xacro file, parameter server and string loaders build the same robot from the same document, with the root and tip links asked for, and pass on the exception of a source that fails.",
  "all file names, packages, file systems, documents, links", "All path names and file systems; the tests read two fixed files without a package.", U+":_resolve_file", U+":_load_xml_to_string", U+":_load_xacro_to_string", U+":robot_from_xml_file", U+":robot_from_xacro_file", U+":robot_from_parameter_server", U+":robot_from_xml_string")
p("iterative_invkin in binary64 reports convergence only at the desired pose",
  "If iterative_invkin returns converged = True for a stored robot and pose with error d, then some iterate p has |p_T - p_d| <= 2 tol + err*span and its orientation error has entries below max(tol, 2e-6) + 40 err, where err = (n+3)(100 d + 2^-42), and the returned joints are p moved by whole turns up to rounding; for turning joints the returned joints move every tool point to within the tolerance of where the pose puts it.",
  "all stored robots, poses, seeds, gains, numbers of iterations, any pseudo-inverse, every summation order of dot, every math library within 2^-52 (sin, cos) and 2^-50 (arctan2)", "All binary64 runs with any pseudo-inverse; the misreading of half turns needs an axis within the tolerance of the last axis.", K+":iterative_invkin", G+":R2rot", G+":fwdkin")
p("q2rot returns the rotation of the quaternion in binary64",
  "For a stored quaternion within d <= 2^-46 of a unit quaternion q, q2rot returns finite numbers and the turn by the returned angle about the returned axis is within 6d + 2^-45 of the rotation of q, or q is within 6e-7 of the identity and the result is no rotation about z; rot2q of the result is q up to d + 2^-48; the axis is accurate to (3d + 2^-48)/s^2 and the angle to (4d + 2^-48)/s with s the length of the vector part.",
  "all stored unit quaternions, every math library within 2^-52 (sin, cos) and 2^-50 (arccos)", "All binary64 quaternions; the loss of accuracy of the axis near the identity, the arc cosine of a number just above 1 and the division by a sine near 0 are not met by a few test values.", G+":q2rot", G+":rot2q")
p("Several robots share one Tesseract environment",
  "An environment for one robot, to which further robots are added with include_world=False, gives every robot its own kinematics: TesseractRobot for the environment has base link world and the robot's last link as tip, and its fwdkin, jacobian, invkin and kinematic group are those of that robot, whatever the joint values of the others. A robot is accepted exactly when its name is new and it brings no joint name that is already there; link names never clash. Exactly one of robot and tesseract_env may be given. Robots with different names can always be put together.",
  "any number of robots, chains of any length, names, joint values", "Ranges over all numbers of robots and all names; the tests put one robot in an environment. Clashes need names that contain underscores.", T+":TesseractRobot", T+":robot_to_tesseract_env_commands", T+":robot_to_scene_graph")
p("subproblem4 finds the angles in binary64",
  "For stored vectors of sizes up to M and N and a stored unit axis, every finite angle t that subproblem4 returns has |p.rot(k,t)q - d| <= 2^-42 M N. A solution s where the displacement changes at a rate of at least kap >= 2^-20 M N is found up to 2^-40 M N / kap and whole turns, next to a second finite angle. A d out of reach gives no angle.",
  "all stored vectors and axes with sizes between 2^-190 and 2^190, all d, every summation order of dot, every math library within 2^-50 (arctan2, arcsin)", "All binary64 vectors; the two solutions merge at the ends of the reach, where the arc sine loses half of the digits.", G+":subproblem4")
p("subproblem2 finds the pairs of angles in binary64",
  "For stored vectors of equal length up to M, and stored unit axes at angle phi, every pair that subproblem2 returns has |rot(k1,t1)rot(k2,t2)p - q| <= 2 sqrt(eps) + M r (2^-28 + 2^-37 G^2), with G >= 1/sin^2(phi) and r >= M over the distances of p and q from their axes. A solution where the cones cross by at least be^2 M^2 is found up to sqrt(eps) + M r (2^-29 + 2^-38 G^2) + M 2^-39 G^2/be. Cones that miss each other by more than 2^-39 M^2 G^2 + eps give the empty list.",
  "all stored vectors and axes with sizes between 2^-150 and 2^150, every summation order of dot, every math library with arctan2 within 2^-50", "All binary64 vectors; the result degrades where the axes become parallel, where a vector comes near an axis and where the cones touch.", G+":subproblem2", G+":subproblem1", G+":subproblem0")
p("robot6_sphericalwrist_invkin reaches the pose in binary64",
  "Every vector of finite joint values up to 1024 that robot6_sphericalwrist_invkin returns places each tool point u within sqrt(eps) + rho 2^-22 (M + |u|) of where the pose puts it. M bounds the sum of all link vectors, the pose and the auxiliary shifts. rho bounds M over the distances of the two arm links and of their sum from the elbow axis, and one over the sine of the wrist angle. With limits every returned value is finite and strictly inside them, and every returned vector has six entries.",
  "all stored six-axis robots with spherical wrist, auxiliary transforms, poses, limits and last joints, with sizes between 2^-150 and 2^150 and rho up to 1000; every summation order of dot, every math library with sin and cos within 2^-52 and the inverse functions within 2^-50", "All binary64 robots and poses; the errors of five subproblems pass through one another and grow near the singular poses.", K+":robot6_sphericalwrist_invkin", K+":normalize_joints", G+":unapply_robot_aux_transforms", G+":subproblem1", G+":subproblem2", G+":subproblem3", G+":subproblem4")
p("ur_invkin reaches the pose in binary64",
  "Every vector of finite joint values up to 1024 that ur_invkin returns places each tool point u within sqrt(eps) + rho 2^-22 (M + |u|) of where the pose puts it. M bounds the sum of all link vectors, the pose and the auxiliary shifts. rho bounds M over the distances of the two arm links and of their sum from the elbow axis, and one over the sine of the angle between the second and the last axis. With limits every returned value but the fifth is finite and strictly inside them, and every returned vector has six entries.",
  "all stored UR robots, auxiliary transforms, poses, limits and last joints, with sizes between 2^-150 and 2^150 and rho up to 1000; every summation order of dot, every math library with sin and cos within 2^-52 and the inverse functions within 2^-50", "All binary64 robots and poses; the fourth joint is a difference of rounded and normalised angles, and the fifth is never checked against its limits.", K+":ur_invkin", K+":normalize_joints", G+":unapply_robot_aux_transforms", G+":subproblem1", G+":subproblem2", G+":subproblem3", G+":subproblem4")
p("subproblem3 finds every well-conditioned angle in binary64",
  "If an angle s brings the sum of the two vectors to the wanted distance d, up to eta in the square, and the squared distance changes at the rate kap or faster at s, then subproblem3, if it returns, returns an angle within 4 (eta + 2^-24 M^2) / kap of s, up to whole turns. About a coordinate axis it does return. Where the rate is 0 the angle can be lost: two vectors of whole lengths along one line with sum exactly d give the empty list.",
  "all stored vectors up to M and axes within 2^-50 of a unit axis, M between 2^-380 and 2^380, both vectors at least 2^-20 M from the axis, kap at least 2^-17 M^2 and 64 eta M^2 at most kap^2; every summation order of dot, every math library with arccos and arctan2 within 2^-50", "Tests compare the returned angles at a few elbows; that no solution is lost to rounding anywhere but near the stretched and the folded arm is a claim about all of them.", G+":subproblem3", G+":subproblem1", G+":subproblem0")
p("robot6_sphericalwrist_invkin finds every well-conditioned solution in binary64",
  "Let joint values a1..a6 take the robot exactly to the pose, away from singularities and from the joint limits. If robot6_sphericalwrist_invkin returns, called without last joints, then one of the returned vectors is those joint values up to whole turns: joint 1 within 2^-38 rho, joint 3 within 2^-21 rho, joint 2 within 2^-20 rho^2, joint 5 within 2^-16 rho^2 w, joint 4 within 2^-15 rho^2 w^2 and joint 6 within 2^-13 rho^2 w^2, where rho and w bound the conditioning of the arm and of the wrist.",
  "all stored opw robots with or without tool, flange and base, all poses, all exact solutions within 4 rad, M at least 1 and 1.002 times all lengths; the height of the wrist centre changes with joint 1 at M / rho or faster, its squared distance from the shoulder with joint 3 at M^2 / rho or faster, the centre is M / rho or more off the axis of joint 2, |sin a5| is at least 1 / w, rho w at most 31; limits absent or 2^-13 rho^2 w^2 away; every summation order of dot, every math library within the stated error", "Tests look for known joint values among the results at a few poses; that rounding loses no solution in six nested searches, for any robot of the class, is a claim about all of them.", K+":robot6_sphericalwrist_invkin", G+":subproblem4", G+":subproblem3", G+":subproblem2", G+":subproblem1")
p("ur_invkin finds every well-conditioned solution in binary64",
  "Let joint values a1..a6 take the robot exactly to the pose, away from singularities and from the limits of every joint but the fifth. If ur_invkin returns, called without last joints, then one of the returned vectors is those joint values up to whole turns: joint 1 within 2^-38 rho, joints 2 and 4 within 2^-16 rho^2 w^3, joint 3 within 2^-18 rho w^3, joint 5 within 2^-22 w^2 and joint 6 within 2^-19 w^3, where rho and w bound the conditioning of the arm and of the wrist.",
  "all stored UR robots with or without tool, flange and base, all poses, all exact solutions within 4 rad, M at least 1 and 1.002 times all lengths; the height of the wrist centre changes with joint 1 at M / rho or faster, the squared reach with joint 3 at M^2 / rho or faster, the reach is M / rho or more off the axis of joint 2, |sin a5| is at least 1 / w, rho at most 31 and rho^2 w^3 at most 16000; limits absent, or 2^-16 rho^2 w^3 away from the joint values with those of joints 2 and 3 within a half turn either way and |a4| at most 2.8; every summation order of dot, every math library within the stated error", "Tests look for known joint values among the results at a few poses; that rounding loses no solution in the nested loops, for any robot of the class, is a claim about all of them.", K+":ur_invkin", G+":subproblem4", G+":subproblem3", G+":subproblem2", G+":subproblem1")
p("slerp returns a point of the shorter arc in binary64",
  "Let p and q be the two quaternions divided by their exact lengths, p with the sign that makes the exact dot product at least -2^-47, and let th be the exact angle between them. Unless the computed cosine exceeds 1 (C80), slerp returns four entries, and either th is at most 1.1e-6 and each is the entry of p up to 2^-50, or th is at least 9e-7 and each is the entry of the exact point (sin((1-t) th) p + sin(t th) q) / sin th up to 2^-44 / sin th.",
  "all pairs of finite quaternions with entries up to 2^400 and squared lengths from 2^-800, all t in [0, 1], every summation order of dot, every math library within the stated error", "Tests compare the length or a few known rotations; how far rounding moves the result from the arc, as the angle shrinks to the threshold of the shortcut, is a statement about all pairs.", G+":slerp")
p("with last_joints the inverse kinematics programs return the nearby solution in binary64",
  "Let an exact solution lie within 5/4 rad of last_joints joint by joint, inside the limits with room to spare and away from singularities. Then robot6_sphericalwrist_invkin and ur_invkin, called with last_joints, return a vector that is this solution with no whole turns added, up to the errors of C111 and C112 (the fifth joint of ur_invkin, which is not normalised, up to whole turns).",
  "all robots and poses of C111 and C112, all last_joints, every sorting function that returns a permutation of the indices, every summation order of dot, every math library within the stated error", "Tests follow one trajectory; that neither the choice of candidates close to last_joints, nor the sorting, nor the whole turns of the normaliser loses the nearby solution is a statement about all poses and all last_joints.", K+":robot6_sphericalwrist_invkin", K+":ur_invkin", K+":normalize_joints")
p("with last_joints the inverse kinematics programs list solutions nearest first in binary64",
  "For robots with limits of up to 1024 rad, each vector that robot6_sphericalwrist_invkin or ur_invkin returns is no farther from last_joints than any later one: the exact distances satisfy d_i <= (1 + 2^-44) d_j + 2^-440. When an exact solution lies near last_joints as in C114, robot6_sphericalwrist_invkin returns a non-empty list, and its first vector is no farther from last_joints than that solution, up to its error.",
  "all robots, poses and last_joints of up to 1024 rad, every math library (the first vector: those of C114), every sorting function that puts finite keys in order, every summation order of dot", "Tests look at one call; that rounding of the differences, of the sum and of the square root never changes the order by more than a rounding error is a statement about all vectors.", K+":robot6_sphericalwrist_invkin", K+":ur_invkin")
p("forward kinematics takes the output of inverse kinematics back to the pose in binary64",
  "fwdkin of a robot with six rotary joints returns finite numbers for all finite joint values inside the limits, and the pose moves every point to within 2^-37 (M + |u|) of its exact place. Each vector that robot6_sphericalwrist_invkin returns for a robot with limits passes the limit check of fwdkin, and away from singularities fwdkin returns the requested pose up to sqrt(eps) + rho 2^-21 (M + |u|). For ur_invkin the same holds with ignore_limits; with the limits checked fwdkin can raise AssertionError on what ur_invkin returned.",
  "all robots, poses, joint values and conditions rho up to 1000 (the limit check: every math library), every summation order of dot", "Tests call the two functions one after the other for a handful of poses; that the round trip never raises and never drifts further than the stated bound is a statement about all poses.", G+":fwdkin", K+":robot6_sphericalwrist_invkin", K+":ur_invkin")
p("comparison and inverse of Transforms in binary64",
  "a == b holds exactly when every entry of a is within 1e-8 + 1e-6 |y| of the entry y of b, up to a factor of 1 +- 2^-50, and a.isclose(b, tol) when it is within tol + 1e-5 |y|; a Transform equals itself unless it holds a NaN; an infinite entry matches only the same infinity, a NaN nothing. T * T.inv() and T.inv() * T move every point u by at most 2^-41 (M + |u|) and compare equal to the identity when M is at most 2^15; T.inv().inv() returns the rotation bit for bit and the position up to 2^-42 M. isclose accepts the pose that fwdkin computes from the output of inverse kinematics when tol covers the error of C116. For large positions T * T.inv() does not compare equal to the identity.",
  "all Transforms with finite entries of moderate size (equality with itself: every Transform), every summation order of dot", "Whether == forgives the rounding of T * T.inv() depends on the size of the position; tests use positions near 1.", G+":Transform.__eq__", G+":Transform.isclose", G+":Transform.inv", G+":identity_transform", K+":robot6_sphericalwrist_invkin", K+":ur_invkin")
p("equivalent_configurations of whole robots in binary64",
  "equivalent_configurations lists, for each given configuration, exactly the vectors in which some rotary joints (at least one) take another value among the whole-turn alternatives of that joint, in every combination, and nothing else. Each listed vector agrees with the configuration up to whole turns of rotary joints and an error of 2^-37, differs from it in some joint by more than 5 rad, keeps the limits up to 2^-39 and takes a robot with six rotary joints to the same pose up to 2^-34 (M + |u|) at the point u; alternatives of what robot6_sphericalwrist_invkin returned reach the pose asked for. Every choice of turns that keeps within the limits by 2^-41 is listed. With last_joints the vectors come nearest first up to rounding, and the call fails with ValueError exactly when there are none. It also fails with ValueError when a rotary joint can turn towards one limit and its distance to the other is infinite or undefined. An alternative can exceed a limit by rounding, and fwdkin then refuses it.",
  "all robots and configurations (the description of the list: every arithmetic; the bounds: joint values and limits up to 1024, every summation order of dot)", "The alternatives multiply with the number of joints and the numbers of turns; a test compares single values, not the whole list nor the rounding at the limits.", K+":equivalent_configurations", G+":fwdkin")
p("hat, invhat, screw_matrix and quatjacobian in binary64",
  "invhat(hat(k)) is k bit for bit (infinities, NaN and signed zeros included) unless an entry reaches 2^1023 in size, where it overflows. invhat of any matrix with entries up to 2^998 is within 3 u relative + 3 e of half the differences of its entries. hat(k) applied to v is within 7 u sizes + 10 e of k x v; applied to k itself it gives exactly 0 in every order of summation without fused multiply-add (entries up to 2^400), and with it the rounding error of a product can be left over. screw_matrix is exact. The product of the screw matrices of a and b has exactly the values of the screw matrix of the rounded sum of a and b, whatever the order of summation, and the screw matrices of a and -a are inverse exactly. A wrench moved by it keeps its force exactly and has torque t + r x f up to 13 u sizes + 20 e; a twist moved by the transpose keeps its angular velocity exactly and has velocity v + w x r up to the same error (u = 2^-53, sizes the sum of the absolute values of the products, e the underflow unit). quatjacobian is exact when no entry is below 2^-1021 without being 0; the quaternion rate it gives is within 21/2 u W + 10 e of the exact one and tangent to the quaternion up to four times that.",
  "all vectors of binary64 numbers (screw products: entries up to 2^998; moved wrenches and twists, rates: results finite; rates: entries of q up to 1), every summation order of dot", "Exactness in every order of summation and for every bit pattern cannot be seen from sampled vectors; tests compare with a tolerance.", G+":hat", G+":invhat", G+":screw_matrix", G+":quatjacobian")
if __name__ == "__main__":
    with open("/verif/properties.jsonl", "w") as f:
        for e in P:
            f.write(json.dumps(e) + "\n")
    print(len(P))
