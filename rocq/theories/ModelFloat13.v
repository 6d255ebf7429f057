(** Comparison of Transforms over any arithmetic. *)
From Coq Require Import Reals ZArith List Bool.
From Verif Require Import LinAlg RealAux Py ModelRot ModelRobot ModelFloat ModelFloat2 ModelFloat11.
Import ListNotations.

Section Compare.
Context (A : arith).
Notation num := (num A).

(** [np.isclose(a, b, rtol, atol)]: [|a - b| <= atol + rtol |b|] with b finite (b - b is 0 unless b is infinite or NaN), or a
    equal to b, which decides for infinite entries; NaN is close to nothing *)
Definition g_near (rtol atol a b : num) : bool :=
  ((nle A (nabs A (nsub A a b)) (nadd A atol (nmul A rtol (nabs A b))) && g_zero A (nsub A b b)) || (nle A a b && nle A b a))%bool.
(** [np.all(np.isclose(a, b, rtol, atol))] on (3,) and 3x3 arrays *)
Definition g_v_near (rtol atol : num) (a b : v3 num) : bool :=
  (g_near rtol atol (w0 a) (w0 b) && g_near rtol atol (w1 a) (w1 b) && g_near rtol atol (w2 a) (w2 b))%bool.
Definition g_m_near (rtol atol : num) (X Y : m3 num) : bool :=
  (g_v_near rtol atol (w0 X) (w0 Y) && g_v_near rtol atol (w1 X) (w1 Y) && g_v_near rtol atol (w2 X) (w2 Y))%bool.
(** general_robotics_toolbox.py:491-494 [__eq__]: rtol 1e-6, atol 1e-8 (the default of np.isclose) *)
Definition g_teq (a b : gtf A) : bool :=
  (g_m_near (nlit A 1 1000000) (nlit A 1 100000000) (gR a) (gR b) && g_v_near (nlit A 1 1000000) (nlit A 1 100000000) (gp a) (gp b))%bool.
(** general_robotics_toolbox.py:525-528 [isclose]: rtol 1e-5 (the default of np.isclose), atol tol *)
Definition g_tisclose (a b : gtf A) (tol : num) : bool :=
  (g_m_near (nlit A 1 100000) tol (gR a) (gR b) && g_v_near (nlit A 1 100000) tol (gp a) (gp b))%bool.
(** general_robotics_toolbox.py:902-904 [identity_transform] *)
Definition g_identity : gtf A := GT (g_I3 A) (g_vzero A).
End Compare.
