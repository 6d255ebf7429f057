(** Model of the rotation and quaternion functions of
    /repo/src/general_robotics_toolbox/general_robotics_toolbox.py, lines 37-331.
    Every definition follows the code line by line; reals instead of floats
    (DESIGN.md, simplifications 1 and 2). *)
From Coq Require Import Reals.
From Verif Require Import LinAlg RealAux Py.
Open Scope R_scope.

(** general_robotics_toolbox.py:37-58 [hat] *)
Definition hat (k : vec3) : mat3 :=
  M3 0 (- vz k) (vy k)
     (vz k) 0 (- vx k)
     (- vy k) (vx k) 0.

(** general_robotics_toolbox.py:60-61 [invhat] *)
Definition invhat (K : mat3) : vec3 :=
  vdiv (V3 (- m12 K + m21 K) (m02 K - m20 K) (- m01 K + m10 K)) 2.

(** general_robotics_toolbox.py:64-82 [rot] *)
Definition rot (k : vec3) (theta : R) : mat3 :=
  let khat := hat k in
  let khat2 := mmul khat khat in
  madd (madd I3 (mscale (sin theta) khat)) (mscale (1 - cos theta) khat2).

(** The axis returned by [R2rot] is a numpy array except near the identity,
    where it is the Python list [0,0,1] (line 112). *)
Inductive axis := NdArray (k : vec3) | PyList (k : vec3).
Definition axis_vec (a : axis) : vec3 := match a with NdArray k => k | PyList k => k end.

(** general_robotics_toolbox.py:84-123 [R2rot].
    [NaN]: [np.sqrt] of a negative diagonal entry of B (line 115), which no rotation
    matrix reaches; the angle is then still pi but the axis has NaN entries. *)
Definition R2rot (A : mat3) : flt (axis * R) :=
  let R1 := msub A (mT A) in
  let sin_theta := sqrt (frob2 R1) / sqrt 8 in
  let cos_theta := (trace A - 1) / 2 in
  let theta := atan2 sin_theta cos_theta in
  if Rltb sin_theta (1 / 1000000) then
    if Rltb 0 cos_theta then Fin (PyList (V3 0 0 1), 0)
    else
      let B := mscale (1 / 2) (madd A I3) in
      if (Rltb (m00 B) 0 || Rltb (m11 B) 0 || Rltb (m22 B) 0)%bool then NaN
      else
        let k0 := sqrt (m00 B) in
        let k1 := sqrt (m11 B) in
        let k2 := sqrt (m22 B) in
        if Rltb (1 / 1000000) (Rabs k0) then
          Fin (NdArray (V3 k0 (k1 * sgn (m01 B / k0)) (k2 * sgn (m02 B / k0))), PI)
        else if Rltb (1 / 1000000) (Rabs k1) then
          (* line 119: the code reads B[0,2] here *)
          Fin (NdArray (V3 k0 k1 (k2 * sgn (m02 B / k1))), PI)
        else Fin (NdArray (V3 k0 k1 k2), PI)
  else
    let k := vdiv (invhat R1) (2 * sin_theta) in
    Fin (NdArray k, theta).

(** general_robotics_toolbox.py:125-143 [screw_matrix] *)
Definition screw_matrix (r : vec3) : mat6 := M6 I3 (hat r) mzero I3.

(** general_robotics_toolbox.py:145-159 [q2R] *)
Definition q2R (q : quat) : mat3 :=
  let qhat := hat (qvec q) in
  let qhat2 := mmul qhat qhat in
  madd (madd I3 (mscale (2 * q0 q) qhat)) (mscale 2 qhat2).

(** [math.sqrt], which raises ValueError on negative arguments *)
Definition math_sqrt (x : R) : out R := if Rltb x 0 then Err ValueError else Ok (sqrt x).

(** general_robotics_toolbox.py:161-199 [R2q].  [Ok NaN]: division by S = 0
    (numpy float64 division warns and gives nan or inf). *)
Definition R2q (A : mat3) : out (flt quat) :=
  let tr := trace A in
  if Rltb 0 tr then
    let* r := math_sqrt (tr + 1) in
    let S := 2 * r in
    if Reqb S 0 then Ok NaN else
    Ok (Fin (Q4 (1/4 * S) ((m21 A - m12 A) / S) ((m02 A - m20 A) / S) ((m10 A - m01 A) / S)))
  else if (Rltb (m11 A) (m00 A) && Rltb (m22 A) (m00 A))%bool then
    let* r := math_sqrt (1 + m00 A - m11 A - m22 A) in
    let S := 2 * r in
    if Reqb S 0 then Ok NaN else
    Ok (Fin (Q4 ((m21 A - m12 A) / S) (1/4 * S) ((m01 A + m10 A) / S) ((m02 A + m20 A) / S)))
  else if Rltb (m22 A) (m11 A) then
    let* r := math_sqrt (1 - m00 A + m11 A - m22 A) in
    let S := 2 * r in
    if Reqb S 0 then Ok NaN else
    Ok (Fin (Q4 ((m02 A - m20 A) / S) ((m01 A + m10 A) / S) (1/4 * S) ((m12 A + m21 A) / S)))
  else
    let* r := math_sqrt (1 - m00 A - m11 A + m22 A) in
    let S := 2 * r in
    if Reqb S 0 then Ok NaN else
    Ok (Fin (Q4 ((m10 A - m01 A) / S) ((m02 A + m20 A) / S) ((m12 A + m21 A) / S) (1/4 * S))).

(** general_robotics_toolbox.py:201-214 [q2rot].  [NaN]: [np.arccos] outside
    [-1,1], or division by sin(theta/2) = 0 (q0 = -1; with floats sin(np.pi) is
    1.2e-16 and the axis comes out as the zero vector instead). *)
Definition q2rot (q : quat) : flt (vec3 * R) :=
  if (Rltb (q0 q) (-1) || Rltb 1 (q0 q))%bool then NaN
  else
    let theta := 2 * acos (q0 q) in
    if Rltb (Rabs theta) (1 / 1000000) then Fin (V3 0 0 1, 0)
    else if Reqb (sin (theta / 2)) 0 then NaN
    else Fin (vdiv (qvec q) (sin (theta / 2)), theta).

(** general_robotics_toolbox.py:216-229 [rot2q]; [k.reshape] needs a numpy array *)
Definition rot2q (k : axis) (theta : R) : out quat :=
  match k with
  | NdArray k => Ok (qmk (cos (theta / 2)) (vscale (sin (theta / 2)) k))
  | PyList _ => Err AttributeError
  end.

(** general_robotics_toolbox.py:231-244 [quatcomplement] *)
Definition quatcomplement (q : quat) : quat := Q4 (q0 q) (-1 * q1 q) (-1 * q2 q) (-1 * q3 q).

(** general_robotics_toolbox.py:247-268 [quatproduct]: a 4x4 matrix built by blocks *)
Definition quatproduct (q : quat) : mat4 :=
  let B := madd (mscale (q0 q) I3) (hat (qvec q)) in
  M4 (Q4 (q0 q) (- q1 q) (- q2 q) (- q3 q))
     (Q4 (q1 q) (m00 B) (m01 B) (m02 B))
     (Q4 (q2 q) (m10 B) (m11 B) (m12 B))
     (Q4 (q3 q) (m20 B) (m21 B) (m22 B)).

(** general_robotics_toolbox.py:271-287 [quatjacobian]: a 4x3 matrix built by blocks *)
Definition quatjacobian (q : quat) : mat43 :=
  let B := mscale (1/2) (msub (mscale (q0 q) I3) (hat (qvec q))) in
  M43 (vscale (1/2) (vneg (qvec q)))
      (V3 (m00 B) (m01 B) (m02 B))
      (V3 (m10 B) (m11 B) (m12 B))
      (V3 (m20 B) (m21 B) (m22 B)).

(** general_robotics_toolbox.py:289-290 [rpy2R] *)
Definition rpy2R (r p y : R) : mat3 :=
  mmul (mmul (rot (V3 0 0 1) y) (rot (V3 0 1 0) p)) (rot (V3 1 0 0) r).

(** general_robotics_toolbox.py:292-299 [R2rpy] *)
Definition R2rpy (A : mat3) : out (R * R * R) :=
  let* _ := assert_ (Rltb (eps * 10) (sqrt (m00 A * m00 A + m10 A * m10 A))) in
  let r := atan2 (m21 A) (m22 A) in
  let y := atan2 (m10 A) (m00 A) in
  let p := atan2 (- m20 A) (sqrt (m21 A * m21 A + m22 A * m22 A)) in
  Ok (r, p, y).

(** general_robotics_toolbox.py:302-331 [slerp].  [Ok NaN]: a zero quaternion
    (0/0 when normalising).  In exact arithmetic the normalised dot product is in
    [-1,1], so [np.arccos] is defined; sin(theta) = 0 is tested explicitly. *)
Definition slerp (a b : quat) (t : R) : out (flt quat) :=
  let* _ := assert_ (Rleb 0 t && Rleb t 1)%bool in
  if (Reqb (qnorm a) 0 || Reqb (qnorm b) 0)%bool then Ok NaN
  else
    let a1 := qdiv a (qnorm a) in
    let b1 := qdiv b (qnorm b) in
    let a2 := if Rltb (qdot a1 b1) 0 then qneg a1 else a1 in
    let theta := acos (qdot a2 b1) in
    if Rltb (Rabs theta) (1 / 1000000) then Ok (Fin a2)
    else if Reqb (sin theta) 0 then Ok NaN
    else
      let q := qdiv (qadd (qscale (sin ((1 - t) * theta)) a2) (qscale (sin (t * theta)) b1)) (sin theta) in
      if Reqb (qnorm q) 0 then Ok NaN else Ok (Fin (qdiv q (qnorm q))).
