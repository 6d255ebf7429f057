(** Roll, pitch and yaw over any arithmetic. *)
From Coq Require Import Reals ZArith List Bool.
From Verif Require Import LinAlg RealAux Py ModelRot ModelFloat.
Import ListNotations.

Section Rpy.
Context (A : arith).
Notation num := (num A).

(** the axes [[1,0,0]], [[0,1,0]] and [[0,0,1]]; [rot] builds float arrays from them *)
Definition g_ex : v3 num := W3 (none1 A) (nzero A) (nzero A).
Definition g_ey : v3 num := W3 (nzero A) (none1 A) (nzero A).
Definition g_ez : v3 num := W3 (nzero A) (nzero A) (none1 A).

(** general_robotics_toolbox.py:289-290 [rpy2R]; urdf.py:57-58 [_rpy_to_rot] is the same product.
    The three angles are given one by one. *)
Definition g_rpy2R (r p y : num) : m3 num :=
  g_mm A (g_mm A (g_rot A g_ez y) (g_rot A g_ey p)) (g_rot A g_ex r).

(** general_robotics_toolbox.py:292-299 [R2rpy]; np.linalg.norm of a slice of two entries *)
Definition g_R2rpy (M : m3 num) : out (num * num * num) :=
  let* _ := assert_ (nlt A (nmul A (neps A) (nlit A 10 1)) (l_norm A [w0 (w0 M); w0 (w1 M)])) in
  let r := natan2 A (w1 (w2 M)) (w2 (w2 M)) in
  let y := natan2 A (w0 (w1 M)) (w0 (w0 M)) in
  let p := natan2 A (nneg A (w0 (w2 M))) (l_norm A [w1 (w2 M); w2 (w2 M)]) in
  Ok (r, p, y).
End Rpy.
