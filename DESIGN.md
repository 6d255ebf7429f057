# Formal model of general_robotics_toolbox: design

Target: `/repo/src/general_robotics_toolbox` (Python). Proof assistant: Coq 8.16.1.
All files are in `rocq/theories`, logical prefix `Verif`.

## 1. What is modelled, and how

| File | Content |
|---|---|
| `LinAlg.v` | 3-vectors, 3x3 matrices, quaternions over `R`; operations numpy provides |
| `RealAux.v` | `atan2`, floor, `is_close`, trigonometric helpers |
| `Py.v` | Python outcomes: `out A = Ok a \| Err e`, exceptions, list helpers |
| `Model*.v` | the code, function by function, each with file and line numbers |
| `Spec*.v` | independent specifications (point maps, geometric conditions, sets of configurations) |
| `Facts*.v` | lemmas and proofs |
| `Prop*.v` | the property theorems (closed by `exact`), their non-vacuity examples, `Print Assumptions` |

The model is shallow: each Python function is a Gallina function that follows the code branch by branch.
Raised exceptions are values (`Err AssertionError`, ...), never defaults.

### Simplifications (they apply everywhere unless a definition says otherwise)

1. **Real numbers instead of binary64.** Except in C76, C77, C79-C83 and C86-C90 (see below), Python floats are modelled as `R`; no rounding, no overflow,
   no signed zero. `np.pi` is `PI`; decimal literals are exact rationals; `np.finfo(float64).eps` is `/2^52`
   and `np.sqrt(eps)` is `/2^26`.
2. **Non-finite values.** Where the code can produce NaN or infinity in exact arithmetic (0/0, `arccos` and
   `arcsin` out of range) the model has an explicit `NaN` result (`flt A = Fin a | NaN`) or follows the NaN by
   hand to the branch it reaches (the comment on the definition gives the trace). Inputs are finite.
3. **Arrays.** A numpy array of shape (3,) or (3,1) is `vec3`, one of shape (3,3) is `mat3`, 3xN is a list of
   columns. Shapes are checked where the code checks them.
4. **Warnings** (`warnings.warn`) are not modelled: they do not change results.
5. **Aliasing.** Arrays are values, except in C92 and C93 (`ModelMem.v`: arrays are views of a memory). The one place where the library mutates its argument
   (`robot6_sphericalwrist_invkin` rewriting `robot.P`) is modelled by returning the new robot.
6. `np.argsort` is an arbitrary function meeting `argsort_spec` (sorted by distance, ties open). The seed of `iterative_invkin` is
   an ndarray (a Python list raises AttributeError on `.reshape`).
7. **urdf_parser_py** hands over links and joints in document order; its `link_map`, `joint_map`, `parent_map` and
   `child_map` are dictionaries filled in that order, `get_root` and `get_chain` are transcribed from its documented
   behaviour in `ModelUrdf.v`. A walk that never ends is the explicit outcome `Hang`.
8. **ROS messages** are objects with named attributes; constructors store their arguments. **YAML documents** are an
   inductive type (null, integers, finite floats, strings, lists, string-keyed mappings); `float(str)` is an arbitrary
   partial function; a robot containing a NaN (from a null) is the explicit result `Ok NaN`.
9. External libraries (numpy, urdf_parser_py, yaml, ROS messages, tesseract) are represented by the small part
   of their contract that the code uses, stated at the definition. `np.linalg.pinv` is an arbitrary function.

### Binary64 (C76, C77, C79-C83, C86-C90, C97-C101, C103, C104, C106, C107, C108, C109, C110, C111, C112, C113, C114, C115, C116, C117, C118, C119)

`ModelFloat.v` (robotjacobian: `ModelFloat2.v`, normalize_joints: `ModelFloat3.v`, R2q, q2R, rot2q, quatproduct, quatcomplement: `ModelFloat4.v`, ROS pose messages: `ModelFloat5.v`, rpy2R and R2rpy: `ModelFloat6.v`, iterative_invkin: `ModelFloat7.v`, q2rot: `ModelFloat8.v`, screw_matrix and quatjacobian: `ModelFloat15.v`, equivalent_configurations: `ModelFloat14.v`, comparison of Transforms: `ModelFloat13.v`, ur_invkin: `ModelFloat12.v`, robot6_sphericalwrist_invkin: `ModelFloat11.v`, subproblem2: `ModelFloat10.v`, subproblem4: `ModelFloat9.v`) transcribes fwdkin, rot, Transform products, subproblem0/1/3, slerp, the one-joint part of
equivalent_configurations and R2rot once more over an abstract arithmetic (record `arith`). Its instances are
* `real_arith`: the reals; `C76_reals` and `C79_reals`-`C83_reals` prove that there the text is the model of `ModelKin.v` and the other exact models;
* `b64_arith L dot`: IEEE binary64 with rounding to nearest even, built on Flocq's `BinarySingleNaN` (one NaN, signed
  zeros, infinities; Flocq adds no axiom). `L` is the math library (sin, cos, acos, atan2 as arbitrary functions; C76 assumes sin and cos
  within 2^-52 of the exact value, `libm_ok`, C82 and C89 assume arctan2 and arccos within 2^-50, `libm_arc_ok`, C90 arctan2 within 2^-50 in the upper half plane, `libm_atan2_ok`, C106 also arcsin within 2^-50 on [-1, 1] and no number elsewhere, `libm_asin_ok`; such libraries are constructed). `dot` is the summation order of numpy's dot
  products and sums of squares: from either end, with or without fused multiply-add, or four products in two lanes (`b_dots`).
Left out: overflow (the error bounds assume a finite result), warnings, extended precision, other summation orders.

### Not modelled

The generator behind `np.random.rand` (its draws are parameters), numpy's formatting of arrays (a parameter), the rospy based parts of
`ros_tf.py` other than the conversion of a listener's answer, rospkg, the file system, xacro, the URDF parser and the parameter
server (parameters of `ModelFiles.v`), `kinematics_plugin_info_string` (a YAML dump), the tesseract planning objects themselves
(only the data handed to tesseract is modelled).

Contract of the Tesseract library (used by C60, C61, C73-C75, C85, C105; stated in `ModelTess.v` and `SpecTess.v`): `addLink`
refuses repeated link and joint names and unknown parents; `AngleAxisd(R)` reproduces rotation matrices (hypothesis
`forall A, is_SO3 A -> aa A = A`); applying an `AddSceneGraphCommand` with a prefix inserts the prefixed graph below the
given joint and fails on name clashes or unknown links; a revolute or prismatic joint moves its child as
`joint_place` says; the OPW and UR solvers work on the arms `opw_arm` and `ur_dh`. `calcFwdKin`, `calcJacobian` and
`calcInvKin` are parameters with the specifications `table`, `velocity_jacobian` and `solver_sound`; `getRedundantSolutions`
is a parameter with the specification `redundant_contract` (C85, `PropTess2.v`); `getKinematicGroup` of a given environment is a parameter with the
specification `group_answer` (C105, `SpecCell.v`).
The YAML text between `yaml.safe_dump` and the library is passed through as a dict.

## 2. Trusted base

* Coq 8.16.1 kernel (and `coqchk`).
* Axioms of the standard library's real numbers, as listed by `Print Assumptions` under every property theorem:
  `ClassicalDedekindReals.sig_forall_dec`, `ClassicalDedekindReals.sig_not_dec`,
  `FunctionalExtensionality.functional_extensionality_dep`, and `Classical_Prop.classic` (used by the library
  lemmas about `atan`, `acos`, `sqrt`). No axiom is added here.
* The faithfulness of the hand translation, within the simplifications above. Nothing links the model to the
  Python text mechanically; each definition cites the lines it transcribes.

## 3. Plan per property

| Id | Plan |
|---|---|
| C01 | algebra on the 9 entries; spec = `cross` |
| C02 | spec = vector Rodrigues formula on points; `ring` with `sin^2+cos^2=1` |
| C03 | angle addition; injectivity from trace and skew part |
| C04 | from `R in SO(3)` derive the axis: `(R-R^T)` is `2 sin(theta) hat k`; Frobenius norm; `atan2` |
| C05 | entries of `R-I` from `R = I + s K + (1-c) K^2` |
| C06 | false as written: the second sign uses `B[0,2]` where `B[1,2]` is needed. Refute with k=(0,3/5,4/5); prove the guarded version |
| C07 C08 | algebra; Hamilton product spec as pairs (scalar, vector) |
| C09 | the four branches; `S>0` from the trace bounds; cofactor equations of SO(3) |
| C10 C11 | half-angle formulas; C11 false at q=(-1,0,0,0): model has an explicit NaN result there |
| C12 | `derivable_pt_lim` componentwise |
| C13 | `atan2` characterisation |
| C14 | arccos/sin algebra; spec = geodesic `R0 * rot(k, t*phi)` |
| C15 | block algebra |
| C16 C17 | action on points; list induction for products |
| C18 | relation read off `np.isclose`; refute symmetry and the tol bound |
| C19 | raw-shape input record; iff characterisation |
| C20 C21 | spec by recursion on point maps; induction on the chain with the accumulator generalised |
| C22 C23 | case analysis |
| C24 | induction on the chain; derivative of a product of rotations; types 0 and 1 |
| C25 | false for mobile joints: refute with type sequence [3;..]; exact statement for types 0, 1 |
| C26 | C03 + induction |
| C27-C33 | geometry of the canonical subproblems; soundness, completeness modulo 2 pi, characterisation of the error branches; refute the false ones |
| C34 C35 | floor arithmetic, interval argument; refute "no candidate is lost" |
| C36-C41 | OPW structure; composition of the subproblem theorems; refute C39 |
| C42 C43 | UR structure; C43 false for joint 5 |
| C44-C46 | list induction over the joints; C45 false (no-op `continue`) |
| C47 C48 | loop invariant; C47 false because of C06 |
| C49-C52 | induction over the URDF chain; C52 against the energy of arbitrary point masses |
| C53-C55 | inductive YAML value type |
| C56-C59 | records of message fields, polymorphic scalars |
| C60-C62 | lists of links and joints |
| C63 C64 C66 | error branches, completeness and unreachable poses of the UR and OPW solvers, from the subproblem theorems |
| C65 | normalisation picks the nearest turn; the exact solution stays in the list |
| C67 | totality of the loop; refuted for one joint |
| C68 | energy of the union of point masses along fixed joints; refuted for displaced fixed joints and bare frames |
| C70 | determinant of `q2R q`: `1 + 4|v|^2 (|q|^2 - 1)` |
| C71 | from C20 and the characterisation in C54 |
| C72 | the arm's rotations are rewritten step by step into the OPW form; refuted upwards by a point on the last axis |
| C73 C74 | inversion of the plugin dict; placements from C60 |
| C75 | C60, C20, C24 and uniqueness of derivatives |
| C76 C77 | relative error per operation, accumulated along the chain by induction; instance for Flocq binary64 |
| C78 | the same propagation over the reals, with the axes' deviation as the only error |
| C79-C83 | refuted by evaluating the binary64 model; C79 for coordinate axes, C80 unless the cosine exceeds 1, C81 up to 8 rounding errors and C82 with a margin proved from Flocq's operation theorems; np.pi against pi by Machin's formula |
| C84 | entrywise reading of np.allclose |
| C85 | contract of `getRedundantSolutions`; kinematic group read off the environment; C44 for the robot side |
| C86 | as C76, with differences and cross products of computed vectors; six-term products with the base |
| C87 | the tested number is the returned one; zero turns are in the list; fmod analysed over the integers |
| C88 | induction over the chain: a turn by d moves a point by at most d times its distance; the second half applies the bounds of C87 |
| C89, C82 (positive half) | each intermediate value is tracked as (value, size, error in units of 2^-53 size), `FactsTrack.v`; the half angle of two computed unit vectors is turned back into a chord, `FactsAngle.v`; subproblem3's distance is an affine function of the cosine of the angle |
| C90 | forward error of trace, skew part and their norms (`FactsSumsq.v`), stability of atan2 on the unit circle; `rot_err` for the round trip |
| C91 | second-order bound of the forward kinematics by its Jacobian (`FactsTaylor.v`), one damped step contracts the error by 9/10 (`FactsConverge.v`); `np.linalg.pinv` by the contract `right_inverse`; a gantry with a wrist as the instance |
| C92 C93 | a memory of numbers, arrays as lists of addresses (views), allocation of new arrays (`ModelMem.v`); freshness of the results, frame conditions for the in-place step, C41 for robots on the same arrays |
| C94 | unit quaternion with non-negative components; half-angle formulas in both directions |
| C95 | cutting a text at double quotes; array texts are parameters |
| C96 | composes C49 (URDF), C53/C54 (Robot Raconteur), C60/C61/C75 (Tesseract) and C36/C37 (inverse kinematics); TypeError from the missing acceleration limits |
| C97 | absolute errors (`FactsNear.v`); the branch taken by the stored matrix has a component of at least 0.48, so the root and the divisions are well conditioned; the unit quaternion is that of the exact matrix |
| C98 | entrywise error of identity + 2 q0 hat + 2 hat^2; composed with C97 and uniqueness of the quaternion up to sign |
| C99 | entrywise error of the 4x4 product; composed with C98 |
| C100 | R2q after q2R for quaternions that are not normalised (`FactsTrip.v`, `FactsDrift.v`); a weighted sum of the errors of vector part and norm that grows by a constant per conversion below 86 degrees; witness by computation |
| C101 | rotations about the coordinate axes entry by entry (`FactsRpy.v`); directions in the plane compared on the unit circle, so that whole turns and the cut of arctan2 need no case distinction; witness next to the vertical |
| C102 | os.path.join transcribed; places of paths as walks in a tree (`SpecPath.v`); the outside world is a record of functions that may raise |
| C103 | `ModelFloat7.v`: the loop over any arithmetic; what the last test says about the real pose by C76 (forward kinematics) and a reading lemma for `R2rot` (`FactsIter64.v`); runs computed for every summation order |
| C104 | `ModelFloat8.v`: q2rot over any arithmetic; `rot` about any vector is `q2R` of the half-angle quaternion, so the error of the axis cancels against the small sine; the stored product computed for every summation order |
| C105 | `SpecCell.v`: environments made for one robot and extended by others; `ModelTess3.v`: `TesseractRobot.__init__` with all arguments; an invariant says the graph is the world with one chain per robot, links of different robots never share a name (what follows an underscore in a link name is a number, `link`, `tip` or `tcp`), and poses in a larger graph are the same |
| C106 | `ModelFloat9.v`: subproblem4 over any arithmetic with arcsin as a parameter; `SpecSub4.v`: the displacement, its rate and what arcsin guarantees. The three coefficients are tracked with `FactsTrack`, the quotient with the lengths of two numbers; the residual is a sum of the errors of the coefficients and of the angle sum; completeness divides the residual by the rate with a lower bound of the sine. |
| C107 | `ModelFloat10.v`: subproblem2 over any arithmetic. `FactsSub2.v`: the two coefficients, the discriminant and the two directions are tracked with `FactsTrack` through the division by 1 - (k1.k2)^2; `PropSub2.v`: the directions lie on both cones up to their error, so the two calls of subproblem1 (C82) turn p and q to them; completeness compares the direction of a solution with the two of the program by the square root of the discriminant. The specification (`cone_gap`, `sp2_error`) is that of C29. |
| C108 | `ModelFloat11.v`: robot6_sphericalwrist_invkin over any arithmetic. `FactsIk64.v` follows a returned vector back through the loops (`trace`); `FactsPath64.v`, `FactsJoint64.v` carry errors of matrices and vectors in units of 2^-53 M; `FactsArm64.v` does the base, elbow and shoulder joints, `FactsWrist64.v` the wrist, `FactsRobot64.v` puts them together (`core`) and adds the corrected link vectors and the auxiliary transforms; `PropRobot64.v` states the result with `robot_point` and `act` of C36. Specification in `SpecRobot64.v` (`stored_robot`, `stored_pose`, `extent`, `sane`). |
| C109 | `ModelFloat12.v`: ur_invkin over any arithmetic, with np.allclose. `FactsUr64.v` follows a returned vector back through the loops (`ur_trace`) and puts the joints together (`ur_core`) from the elbow, shoulder and wrist lemmas of C108 (`FactsArm64.v`, `FactsWrist64.v`); `PropUr64.v` adds the sum of the last two link vectors and the auxiliary transforms and states the result with `robot_point` and `act`. `PropUrR.v` ties the program to the exact model. |
| C110 | `PropReach2.v`. The squared distance is C + 2ab cos(t - t0) with the exact angle t0 between the vectors across the axis. The rate keeps the wanted distance inside the range by kap^2 / (4 M^2), so the two tests pass (`not_empty`); the rounded cosine is then close to cos(s - theta), and two angles with nearly equal cosines agree up to sign (`cos_match`). `SpecReach.v` defines the rate. |
| C111 | `PropFind64.v`, `FactsFound64.v`, `FactsSeek64.v`, `FactsFind64.v`. `solve_find` follows the search forwards: an accepted angle of one joint leads to the next. Each joint uses the completeness of its subproblem on data that the earlier joints have moved a little: C106_complete (joint 1), C110_complete (joint 3), `shoulder_raw` and `moves_same` (joint 2: two turns of one vector that end close together are close angles), C107_sides and `cos_match` (joints 5 and 4: the pair on the right side of the wrist), `last_raw` (joint 6). `norm_found` shows that the normaliser keeps an angle that has room inside the limits. |
| C112 | `PropUrFind64.v`, `FactsUrFind64.v`. `ur_find` follows the loops forwards. The order differs from C111: the pair (q2 + q3 + q4, q5) comes before the elbow, so its error enters the elbow through the fourth link (`ca_moves`) and both enter joint 4 as a difference (`ur_fourth`, `norm_far`: the normaliser on an angle of up to two turns). `base_near`, `pair_found`, `last_near` and `shoulder_raw` are shared with C111. |
| C113 | `PropSlerpArc.v`, `FactsArc4.v`, `SpecSlerp64.v`. The weight sin(t x) / sin x changes no faster than cos x (`wt_lip`, two mean values), so the error of the cosine enters the weights undivided; the rounding of the two sines is divided by sin th; the last normalisation at most triples both (`unit_near`). |
| C114 | `PropTrack64.v`, with `FactsFind64.v`, `PropFind64.v` (`finds_near`) and `PropUrFind64.v` (`ur_finds_near`). The searches of C111 and C112 are stated for any last_joints: a candidate whose normalised value stays within a half turn of last_joints passes the filter (`close_by`), a permutation of the indices keeps it (`sort_has`), and the turns chosen by the normaliser are those of the nearby solution (`turns_there`). |
| C115 | `PropNear64.v`, `FactsDist64.v`, `SpecNear64.v`. Subtraction of stored numbers has a relative error even below the normal range (`sub_rel`, Flocq's FLT_plus_error_N_ex); the sum of up to 20 squares and its root as in C90 with wider bounds (`len_abs`); the contract of np.argsort orders finite keys only (`sorts_keys`). |
| C116 | `PropTrip64.v`, `FactsTrip64.v`, `SpecTrip64.v`. Six steps of the loop of fwdkin with the error calculus of C108 (`mc`, `vc`), which also shows that nothing overflows; then C108_reaches and C109_reaches. |
| C117 | `PropCompare64.v`, `FactsCompare64.v`, `SpecCompare64.v`. One lemma on np.isclose of two floats (`near_iff`) with the error calculus of C108 for the products. |
| C118 | `PropEquiv64.v`, `FactsEquiv64.v`, `SpecEquiv64.v`. The loop keeps the vectors given by flags on the joints seen so far (`step_below`); per joint the bounds of C81, then C88 and C116 for the pose. |
| C119 | `PropScrew64.v`, `FactsScrew64.v`. A dot product with at most two exact products that are not zero is the rounded sum of them in any order (`dot_part`); doubling and halving are exact; the other dot products by the error of a sum of six (`dot6`). |
| C69 | pigeonhole on the walk up the parents; refuted on a cycle |

A property whose statement is false of the code keeps its statement in `properties.jsonl`; the theorem
`..._refuted` gives the witness, a companion theorem gives the strongest true version, and `MANIFEST.json`
marks the property `partial` with a note.

## Tests against wrong programs

`tools/mutate.py` edits one definition of the model in a scratch copy, rebuilds, and writes a line to
`seeded/LOG.jsonl`. `caught` means that the proof of at least one file no longer compiles with the edited
definition; `first_broken` names the first failing lemma of each file and `theorems_failed` the property
theorems that use it, found by name. A broken proof script is evidence, not a proof, that the theorem is false of
the wrong program: a script can also break because a definition has changed its shape. Edits that survive
are listed with `caught: false`; they led either to a stronger theorem (a later line with
`theorems_tightened`) or to a note saying why the edited definition computes the same.
