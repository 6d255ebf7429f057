(** Model of the Paden-Kahan subproblems, general_robotics_toolbox.py:639-855.
    Warnings are dropped.  NaN and infinity: each place where a float division by zero
    or an inverse trigonometric function out of range can occur is an explicit
    branch; what numpy does from there on is traced in the comments. *)
From Coq Require Import Reals List.
From Verif Require Import LinAlg RealAux Py ModelRot.
Import ListNotations.
Open Scope R_scope.

(** general_robotics_toolbox.py:639-673 [subproblem0].  [Ok NaN]: p or q is zero
    (0/0 in the normalisation; the comparison on line 670 is then False). *)
Definition subproblem0 (p q k : vec3) : out (flt R) :=
  let* _ := assert_ (Rltb (dot k p) eps && Rltb (dot k q) eps)%bool in
  if (Reqb (norm p) 0 || Reqb (norm q) 0)%bool then Ok NaN
  else
    let ep := vdiv p (norm p) in
    let eq := vdiv q (norm q) in
    let theta := 2 * atan2 (norm (vsub ep eq)) (norm (vadd ep eq)) in
    if Rltb (dot k (cross p q)) 0 then Ok (Fin (- theta)) else Ok (Fin theta).

(** general_robotics_toolbox.py:675-711 [subproblem1].  A zero k, or p or q parallel
    to k, gives NaN unit vectors (0/0), on which the assertion of subproblem0 fails.
    The NaN answer of subproblem0 is unreachable here ([subproblem1_total] in
    FactsSub). *)
Definition subproblem1 (p q k : vec3) : out R :=
  if Rltb (norm (vsub p q)) sqrt_eps then Ok 0
  else if Reqb (norm k) 0 then Err AssertionError
  else
    let k := vdiv k (norm k) in
    let pp := vsub p (vscale (dot p k) k) in
    let qp := vsub q (vscale (dot q k) k) in
    if (Reqb (norm pp) 0 || Reqb (norm qp) 0)%bool then Err AssertionError
    else
      let* r := subproblem0 (vdiv pp (norm pp)) (vdiv qp (norm qp)) k in
      match r with Fin theta => Ok theta | NaN => Err OtherException end.

(** general_robotics_toolbox.py:714-776 [subproblem2].  For axes that are not unit the cross
    product on line 758 can vanish; gamma is then inf or NaN, c1 and c2 are NaN and the
    assertion in subproblem0 fails. *)
Definition subproblem2 (p q k1 k2 : vec3) : out (list (R * R)) :=
  let k12 := dot k1 k2 in
  let pk := dot p k2 in
  let qk := dot q k1 in
  if Rltb (Rabs (1 - k12 * k12)) eps then Ok []
  else
    let a0 := (k12 * pk - qk) / (k12 * k12 - 1) in
    let a1 := (- pk + k12 * qk) / (k12 * k12 - 1) in
    let bb := dot p p - (a0 * a0 + a1 * a1) - 2 * a0 * a1 * k12 in
    let bb := if Rltb (Rabs bb) eps then 0 else bb in
    if Rltb bb 0 then Ok []
    else
      let nc := norm (cross k1 k2) in
      if Reqb nc 0 then Err AssertionError
      else
        let gamma := sqrt bb / nc in
        let c g := vadd (vadd (vscale a0 k1) (vscale a1 k2)) (vscale g (cross k1 k2)) in
        if Rltb (Rabs gamma) eps then
          (* 762-767: the arguments of subproblem1 are in the wrong order *)
          let* theta2 := subproblem1 k2 p (c gamma) in
          let* theta1 := subproblem1 k1 q (c gamma) in
          Ok [(- theta1, theta2)]
        else
          let* theta1_1 := subproblem1 q (c gamma) k1 in
          let* theta1_2 := subproblem1 q (c (- gamma)) k1 in
          let* theta2_1 := subproblem1 p (c gamma) k2 in
          let* theta2_2 := subproblem1 p (c (- gamma)) k2 in
          Ok [(- theta1_1, theta2_1); (- theta1_2, theta2_2)].

(** general_robotics_toolbox.py:778-819 [subproblem3].  When pp or qp is zero, bb is
    -inf or +inf (an empty result) unless its numerator is zero too; then bb is NaN, which
    passes the test on line 807 when dpsq >= 0, and subproblem1 fails on NaN. *)
Definition subproblem3 (p q k : vec3) (d : R) : out (list R) :=
  let pp := vsub p (vscale (dot p k) k) in
  let qp := vsub q (vscale (dot q k) k) in
  let dpsq := d * d - dot k (vadd p q) * dot k (vadd p q) in
  let num := - (dot pp pp + dot qp qp - dpsq) in
  let den := 2 * norm pp * norm qp in
  if Rltb dpsq 0 then Ok []
  else if Reqb den 0 then (if Reqb num 0 then Err AssertionError else Ok [])
  else
    let bb := num / den in
    if Rltb 1 (Rabs bb) then Ok []
    else
      let* theta := subproblem1 (vdiv pp (norm pp)) (vdiv qp (norm qp)) k in
      let phi := acos bb in
      if Rltb 0 (Rabs phi) then Ok [theta + phi; theta - phi] else Ok [theta].

(** general_robotics_toolbox.py:821-855 [subproblem4].  Only d > 1 is tested: d < -1
    gives arcsin out of range.  With a = b = 0: c > 0 gives +inf (empty result), c < 0
    gives -inf and c = 0 gives NaN, both of which end in NaN angles. *)
Definition subproblem4 (p q k : vec3) (d : R) : list (flt R) :=
  let a := dot p (mvec (hat k) q) in
  let b := - dot p (mvec (hat k) (mvec (hat k) q)) in
  let c := d - (dot p q - b) in
  let phi := atan2 b a in
  let n := sqrt (a * a + b * b) in
  if Reqb n 0 then (if Rltb 0 c then [] else [NaN; NaN])
  else
    let d := c / n in
    if Rltb 1 d then []
    else if Rltb d (-1) then [NaN; NaN]
    else let psi := asin d in [Fin (- phi + psi); Fin (- phi - psi + PI)].
