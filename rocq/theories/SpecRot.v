(** Specifications for the rotation functions, independent of the model. *)
From Coq Require Import Reals.
From Verif Require Import LinAlg RealAux.
Open Scope R_scope.

(** Rotation of the vector v by angle t about the unit axis k: the component
    along k is kept, the orthogonal one turns in its plane. *)
Definition rotate (k : vec3) (t : R) (v : vec3) : vec3 :=
  vadd (vadd (vscale (cos t) v) (vscale (sin t) (cross k v))) (vscale ((1 - cos t) * dot k v) k).

(** M is the matrix of the rotation by t about k. *)
Definition is_rotation_about (k : vec3) (t : R) (M : mat3) : Prop :=
  forall v, mvec M v = rotate k t v.

(** Hamilton product on (scalar, vector) pairs. *)
Definition hamilton (a b : quat) : quat :=
  qmk (q0 a * q0 b - dot (qvec a) (qvec b))
      (vadd (vadd (vscale (q0 a) (qvec b)) (vscale (q0 b) (qvec a))) (cross (qvec a) (qvec b))).
Definition qconj (a : quat) : quat := qmk (q0 a) (vneg (qvec a)).
Definition qone : quat := Q4 1 0 0 0.
(** v as a pure quaternion *)
Definition qpure (v : vec3) : quat := qmk 0 v.
(** q v q* *)
Definition sandwich (q : quat) (v : vec3) : vec3 := qvec (hamilton (hamilton q (qpure v)) (qconj q)).

(** Entries of A and B differ by at most e. *)
Definition mat_close (e : R) (A B : mat3) : Prop :=
  Rabs (m00 A - m00 B) <= e /\ Rabs (m01 A - m01 B) <= e /\ Rabs (m02 A - m02 B) <= e /\
  Rabs (m10 A - m10 B) <= e /\ Rabs (m11 A - m11 B) <= e /\ Rabs (m12 A - m12 B) <= e /\
  Rabs (m20 A - m20 B) <= e /\ Rabs (m21 A - m21 B) <= e /\ Rabs (m22 A - m22 B) <= e.

Definition skew (S : mat3) : Prop := mT S = mscale (-1) S.

(** Elementary rotations about the coordinate axes, as written in textbooks. *)
Definition Rx (a : R) : mat3 := M3 1 0 0 0 (cos a) (- sin a) 0 (sin a) (cos a).
Definition Ry (a : R) : mat3 := M3 (cos a) 0 (sin a) 0 1 0 (- sin a) 0 (cos a).
Definition Rz (a : R) : mat3 := M3 (cos a) (- sin a) 0 (sin a) (cos a) 0 0 0 1.

(** Componentwise derivatives of vector, matrix and quaternion curves. *)
Definition vderiv (f : R -> vec3) (t : R) (d : vec3) : Prop :=
  derivable_pt_lim (fun s => vx (f s)) t (vx d) /\
  derivable_pt_lim (fun s => vy (f s)) t (vy d) /\
  derivable_pt_lim (fun s => vz (f s)) t (vz d).
Definition mderiv (f : R -> mat3) (t : R) (d : mat3) : Prop :=
  (derivable_pt_lim (fun s => m00 (f s)) t (m00 d) /\
   derivable_pt_lim (fun s => m01 (f s)) t (m01 d) /\
   derivable_pt_lim (fun s => m02 (f s)) t (m02 d)) /\
  (derivable_pt_lim (fun s => m10 (f s)) t (m10 d) /\
   derivable_pt_lim (fun s => m11 (f s)) t (m11 d) /\
   derivable_pt_lim (fun s => m12 (f s)) t (m12 d)) /\
  (derivable_pt_lim (fun s => m20 (f s)) t (m20 d) /\
   derivable_pt_lim (fun s => m21 (f s)) t (m21 d) /\
   derivable_pt_lim (fun s => m22 (f s)) t (m22 d)).
Definition qderiv (f : R -> quat) (t : R) (d : quat) : Prop :=
  derivable_pt_lim (fun s => q0 (f s)) t (q0 d) /\
  derivable_pt_lim (fun s => q1 (f s)) t (q1 d) /\
  derivable_pt_lim (fun s => q2 (f s)) t (q2 d) /\
  derivable_pt_lim (fun s => q3 (f s)) t (q3 d).

(** The matrix of w x _ , written out. *)
Definition cross_matrix (w : vec3) : mat3 :=
  of_cols (cross w ex) (cross w ey) (cross w ez).
