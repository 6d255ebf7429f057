(** subproblem2 over any arithmetic. *)
From Coq Require Import Reals ZArith List.
From Verif Require Import LinAlg RealAux Py ModelFloat.
Import ListNotations.

Section Sub2.
Context (A : arith).
Notation num := (num A).
Local Infix "*" := (nmul A). Local Infix "-" := (nsub A). Local Infix "/" := (ndiv A).
(** np.dot(np.array([k1, k2, x]).T, np.hstack((a, g))): the entries are dot products with the rows *)
Definition l_comb (k1 k2 x : list num) (a0 a1 g : num) : list num :=
  map (fun r => ndot A [fst r; fst (snd r); snd (snd r)] [a0; a1; g]) (combine k1 (combine k2 x)).
(** general_robotics_toolbox.py:714-776 [subproblem2]; k12**2 is the product k12*k12 *)
Definition g_subproblem2 (p q k1 k2 : list num) : out (list (num * num)) :=
  let k12 := ndot A k1 k2 in
  let pk := ndot A p k2 in
  let qk := ndot A q k1 in
  if nlt A (nabs A (none1 A - k12 * k12)) (neps A) then Ok []
  else
    let den := k12 * k12 - none1 A in
    let a0 := ndot A [k12; nneg A (none1 A)] [pk; qk] / den in
    let a1 := ndot A [nneg A (none1 A); k12] [pk; qk] / den in
    let bb := ndot A p p - ndot A [a0; a1] [a0; a1] - nlit A 2 1 * a0 * a1 * k12 in
    let bb := if nlt A (nabs A bb) (neps A) then nzero A else bb in
    if nlt A bb (nzero A) then Ok []
    else
      let x := l_cross A k1 k2 in
      let gamma := nsqrt A bb / l_norm A x in
      let c1 := l_comb k1 k2 x a0 a1 gamma in
      if nlt A (nabs A gamma) (neps A) then
        (* 762-767: the arguments of subproblem1 are in the wrong order *)
        let* theta2 := g_subproblem1 A k2 p c1 in
        let* theta1 := g_subproblem1 A k1 q c1 in
        Ok [(nneg A theta1, theta2)]
      else
        let c2 := l_comb k1 k2 x a0 a1 (nneg A gamma) in
        let* theta1_1 := g_subproblem1 A q c1 k1 in
        let* theta1_2 := g_subproblem1 A q c2 k1 in
        let* theta2_1 := g_subproblem1 A p c1 k2 in
        let* theta2_2 := g_subproblem1 A p c2 k2 in
        Ok [(nneg A theta1_1, theta2_1); (nneg A theta1_2, theta2_2)].
End Sub2.
