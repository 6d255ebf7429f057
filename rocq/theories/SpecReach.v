(** How fast the squared distance of subproblem 3 changes with the angle. *)
From Coq Require Import Reals.
From Verif Require Import LinAlg RealAux SpecRot SpecArc.
Open Scope R_scope.

(** the derivative of |q + rot(k, t) p| squared with respect to t; [reach_rate_ok] in PropReach2 proves that it is *)
Definition reach_rate (k p q : vec3) (t : R) : R := 2 * dot q (cross k (rotate k t p)).
