(** q2rot over any arithmetic. *)
From Coq Require Import Reals ZArith.
From Verif Require Import LinAlg RealAux ModelRot ModelFloat ModelFloat4.

Section Q2rot.
Context (A : arith).
Notation num := (num A).
(** general_robotics_toolbox.py:201-214 [q2rot]; the axis is an array of floats in both branches *)
Definition g_q2rot (q : v4 num) : v3 num * num :=
  let two := nlit A 2 1 in
  let theta := nmul A two (nacos A (y0 q)) in
  if nlt A (nabs A theta) (nlit A 1 1000000) then (W3 (nzero A) (nzero A) (none1 A), nzero A)
  else
    let s := nsin A (ndiv A theta two) in
    (W3 (ndiv A (y1 q) s) (ndiv A (y2 q) s) (ndiv A (y3 q) s), theta).
End Q2rot.
