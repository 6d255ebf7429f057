(** Vectors, matrices and quaternions over the reals: the part of numpy the
    toolbox uses.  Definitions only; lemmas are in [FactsLinAlg].

    A numpy array of shape (3,) or (3,1) is a [vec3], one of shape (3,3) is a
    [mat3], a 4-vector is a [quat] (scalar first).  Entries are exact reals
    (DESIGN.md, simplification 1). *)
From Coq Require Import Reals.
Open Scope R_scope.

Record vec3 := V3 { vx : R; vy : R; vz : R }.

Record mat3 := M3 {
  m00 : R; m01 : R; m02 : R;
  m10 : R; m11 : R; m12 : R;
  m20 : R; m21 : R; m22 : R }.

Record quat := Q4 { q0 : R; q1 : R; q2 : R; q3 : R }.

(* ---- vectors ---- *)
Definition vzero : vec3 := V3 0 0 0.
Definition ex : vec3 := V3 1 0 0.
Definition ey : vec3 := V3 0 1 0.
Definition ez : vec3 := V3 0 0 1.
Definition vadd (a b : vec3) : vec3 := V3 (vx a + vx b) (vy a + vy b) (vz a + vz b).
Definition vsub (a b : vec3) : vec3 := V3 (vx a - vx b) (vy a - vy b) (vz a - vz b).
Definition vneg (a : vec3) : vec3 := V3 (- vx a) (- vy a) (- vz a).
Definition vscale (s : R) (a : vec3) : vec3 := V3 (s * vx a) (s * vy a) (s * vz a).
Definition dot (a b : vec3) : R := vx a * vx b + vy a * vy b + vz a * vz b.
Definition cross (a b : vec3) : vec3 :=
  V3 (vy a * vz b - vz a * vy b) (vz a * vx b - vx a * vz b) (vx a * vy b - vy a * vx b).
Definition norm2 (a : vec3) : R := dot a a.
(** [np.linalg.norm] on a vector *)
Definition norm (a : vec3) : R := sqrt (norm2 a).
(** [v / s] (numpy divides entry by entry) *)
Definition vdiv (a : vec3) (s : R) : vec3 := V3 (vx a / s) (vy a / s) (vz a / s).
Definition unit3 (k : vec3) : Prop := dot k k = 1.

(* ---- matrices ---- *)
Definition I3 : mat3 := M3 1 0 0 0 1 0 0 0 1.
Definition mzero : mat3 := M3 0 0 0 0 0 0 0 0 0.
Definition madd (A B : mat3) : mat3 :=
  M3 (m00 A + m00 B) (m01 A + m01 B) (m02 A + m02 B)
     (m10 A + m10 B) (m11 A + m11 B) (m12 A + m12 B)
     (m20 A + m20 B) (m21 A + m21 B) (m22 A + m22 B).
Definition msub (A B : mat3) : mat3 :=
  M3 (m00 A - m00 B) (m01 A - m01 B) (m02 A - m02 B)
     (m10 A - m10 B) (m11 A - m11 B) (m12 A - m12 B)
     (m20 A - m20 B) (m21 A - m21 B) (m22 A - m22 B).
Definition mscale (s : R) (A : mat3) : mat3 :=
  M3 (s * m00 A) (s * m01 A) (s * m02 A)
     (s * m10 A) (s * m11 A) (s * m12 A)
     (s * m20 A) (s * m21 A) (s * m22 A).
(** [np.matmul] / [.dot] of two 3x3 matrices *)
Definition mmul (A B : mat3) : mat3 :=
  M3 (m00 A * m00 B + m01 A * m10 B + m02 A * m20 B)
     (m00 A * m01 B + m01 A * m11 B + m02 A * m21 B)
     (m00 A * m02 B + m01 A * m12 B + m02 A * m22 B)
     (m10 A * m00 B + m11 A * m10 B + m12 A * m20 B)
     (m10 A * m01 B + m11 A * m11 B + m12 A * m21 B)
     (m10 A * m02 B + m11 A * m12 B + m12 A * m22 B)
     (m20 A * m00 B + m21 A * m10 B + m22 A * m20 B)
     (m20 A * m01 B + m21 A * m11 B + m22 A * m21 B)
     (m20 A * m02 B + m21 A * m12 B + m22 A * m22 B).
(** matrix times column vector *)
Definition mvec (A : mat3) (v : vec3) : vec3 :=
  V3 (m00 A * vx v + m01 A * vy v + m02 A * vz v)
     (m10 A * vx v + m11 A * vy v + m12 A * vz v)
     (m20 A * vx v + m21 A * vy v + m22 A * vz v).
Definition mT (A : mat3) : mat3 :=
  M3 (m00 A) (m10 A) (m20 A) (m01 A) (m11 A) (m21 A) (m02 A) (m12 A) (m22 A).
Definition trace (A : mat3) : R := m00 A + m11 A + m22 A.
Definition det (A : mat3) : R :=
  m00 A * (m11 A * m22 A - m12 A * m21 A)
  - m01 A * (m10 A * m22 A - m12 A * m20 A)
  + m02 A * (m10 A * m21 A - m11 A * m20 A).
(** squared Frobenius norm; [np.linalg.norm] of a matrix is its square root *)
Definition frob2 (A : mat3) : R :=
  m00 A * m00 A + m01 A * m01 A + m02 A * m02 A
  + m10 A * m10 A + m11 A * m11 A + m12 A * m12 A
  + m20 A * m20 A + m21 A * m21 A + m22 A * m22 A.
(** columns *)
Definition col0 (A : mat3) : vec3 := V3 (m00 A) (m10 A) (m20 A).
Definition col1 (A : mat3) : vec3 := V3 (m01 A) (m11 A) (m21 A).
Definition col2 (A : mat3) : vec3 := V3 (m02 A) (m12 A) (m22 A).
Definition of_cols (a b c : vec3) : mat3 :=
  M3 (vx a) (vx b) (vx c) (vy a) (vy b) (vy c) (vz a) (vz b) (vz c).

(** Rotation matrices: orthogonal with determinant one. *)
Definition is_SO3 (A : mat3) : Prop := mmul (mT A) A = I3 /\ det A = 1.

(* ---- quaternions, scalar first ---- *)
Definition qvec (q : quat) : vec3 := V3 (q1 q) (q2 q) (q3 q).
Definition qmk (s : R) (v : vec3) : quat := Q4 s (vx v) (vy v) (vz v).
Definition qdot (a b : quat) : R := q0 a * q0 b + q1 a * q1 b + q2 a * q2 b + q3 a * q3 b.
Definition qnorm (a : quat) : R := sqrt (qdot a a).
Definition qscale (s : R) (a : quat) : quat := Q4 (s * q0 a) (s * q1 a) (s * q2 a) (s * q3 a).
Definition qadd (a b : quat) : quat := Q4 (q0 a + q0 b) (q1 a + q1 b) (q2 a + q2 b) (q3 a + q3 b).
Definition qneg (a : quat) : quat := Q4 (- q0 a) (- q1 a) (- q2 a) (- q3 a).
Definition qdiv (a : quat) (s : R) : quat := Q4 (q0 a / s) (q1 a / s) (q2 a / s) (q3 a / s).
Definition unit4 (q : quat) : Prop := qdot q q = 1.

(* ---- other array shapes ---- *)
(** 4x4 matrix as four rows; 4x3 matrix as four rows. *)
Record mat4 := M4 { r4_0 : quat; r4_1 : quat; r4_2 : quat; r4_3 : quat }.
Definition m4vec (A : mat4) (v : quat) : quat :=
  Q4 (qdot (r4_0 A) v) (qdot (r4_1 A) v) (qdot (r4_2 A) v) (qdot (r4_3 A) v).
Record mat43 := M43 { r43_0 : vec3; r43_1 : vec3; r43_2 : vec3; r43_3 : vec3 }.
Definition m43vec (A : mat43) (v : vec3) : quat :=
  Q4 (dot (r43_0 A) v) (dot (r43_1 A) v) (dot (r43_2 A) v) (dot (r43_3 A) v).
(** 6-vector and 6x6 matrix as 3-blocks. *)
Record vec6 := V6 { hi3 : vec3; lo3 : vec3 }.
Record mat6 := M6 { b00 : mat3; b01 : mat3; b10 : mat3; b11 : mat3 }.
Definition m6vec (A : mat6) (v : vec6) : vec6 :=
  V6 (vadd (mvec (b00 A) (hi3 v)) (mvec (b01 A) (lo3 v)))
     (vadd (mvec (b10 A) (hi3 v)) (mvec (b11 A) (lo3 v))).
Definition m6mul (A B : mat6) : mat6 :=
  M6 (madd (mmul (b00 A) (b00 B)) (mmul (b01 A) (b10 B)))
     (madd (mmul (b00 A) (b01 B)) (mmul (b01 A) (b11 B)))
     (madd (mmul (b10 A) (b00 B)) (mmul (b11 A) (b10 B)))
     (madd (mmul (b10 A) (b01 B)) (mmul (b11 A) (b11 B))).
Definition m6T (A : mat6) : mat6 := M6 (mT (b00 A)) (mT (b10 A)) (mT (b01 A)) (mT (b11 A)).
Definition I6 : mat6 := M6 I3 mzero mzero I3.
Definition dot6 (a b : vec6) : R := dot (hi3 a) (hi3 b) + dot (lo3 a) (lo3 b).
