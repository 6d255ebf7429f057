(** subproblem4 over any arithmetic. *)
From Coq Require Import Reals ZArith List.
From Verif Require Import LinAlg RealAux ModelRot ModelFloat.
Import ListNotations.

Section Sub4.
Context (A : arith) (nasin : num A -> num A).
Notation num := (num A).
(** a row vector times a matrix *)
Definition g_vm (p : v3 num) (M : m3 num) : v3 num := v3map (g_dot3 A p) (v3cols M).
(** general_robotics_toolbox.py:821-855 [subproblem4]; nasin is np.arcsin *)
Definition g_subproblem4 (p q k : v3 num) (d : num) : list num :=
  let a := g_dot3 A (g_vm p (g_hat A k)) q in
  let b := nneg A (g_dot3 A p (g_mv A (g_hat A k) (g_mv A (g_hat A k) q))) in
  let c := nsub A d (nsub A (g_dot3 A p q) b) in
  let phi := natan2 A b a in
  let d := ndiv A c (l_norm A [a; b]) in
  if nlt A (none1 A) d then []
  else
    let psi := nasin d in
    [nadd A (nneg A phi) psi; nadd A (nsub A (nneg A phi) psi) (npi A)].
End Sub4.
