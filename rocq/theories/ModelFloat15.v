(** screw_matrix and quatjacobian over any arithmetic. *)
From Coq Require Import Reals ZArith List Bool.
From Verif Require Import LinAlg RealAux Py ModelRot ModelFloat ModelFloat4.
Import ListNotations.

Section Screws.
Context (A : arith).
Notation num := (num A).
(** general_robotics_toolbox.py:125-143 [screw_matrix]: the rows of the 6x6 matrix *)
Definition g_screw (r : v3 num) : list (list num) :=
  let o := nzero A in
  let i := none1 A in
  let h := g_hat A r in
  let row x y z v := [x; y; z; w0 v; w1 v; w2 v] in
  [row i o o (w0 h); row o i o (w1 h); row o o i (w2 h);
   row o o o (W3 i o o); row o o o (W3 o i o); row o o o (W3 o o i)].
(** [np.dot] of two 6x6 matrices, of such a matrix and a vector of six, and [.T] *)
Definition g_T6 (M : list (list num)) : list (list num) := map (fun j => map (fun r => nth j r (nzero A)) M) (seq 0 6).
Definition g_mm6 (M N : list (list num)) : list (list num) := map (fun r => map (ndot A r) (g_T6 N)) M.
Definition g_mv6 (M : list (list num)) (x : list num) : list num := map (fun r => ndot A r x) M.

(** general_robotics_toolbox.py:271-287 [quatjacobian]: the rows of the 4x3 matrix *)
Definition g_quatjac (q : v4 num) : v4 (v3 num) :=
  let half := nlit A 1 2 in
  let qv := W3 (y1 q) (y2 q) (y3 q) in
  let B := v3zip (v3zip (fun i x => nmul A half (nsub A (nmul A (y0 q) i) x))) (g_I3 A) (g_hat A qv) in
  W4 (v3map (fun x => nmul A half (nneg A x)) qv) (w0 B) (w1 B) (w2 B).
(** [np.dot] of a 4x3 matrix and a vector of three *)
Definition g_mv43 (J : v4 (v3 num)) (x : v3 num) : v4 num :=
  W4 (g_dot3 A (y0 J) x) (g_dot3 A (y1 J) x) (g_dot3 A (y2 J) x) (g_dot3 A (y3 J) x).
End Screws.
