(** What arcsin of the math library guarantees, and how fast the displacement changes with the angle. *)
From Coq Require Import Reals.
From Flocq Require Import Core.Core.
From Verif Require Import LinAlg RealAux SpecRot ModelFloat FactsB64.
Open Scope R_scope.

(** arcsin within w on [-1, 1], and no number elsewhere *)
Definition libm_asin_ok (f : b64 -> b64) (w : R) : Prop :=
  (forall x, bfin x -> Rabs (bval x) <= 1 -> bfin (f x) /\ Rabs (bval (f x) - asin (bval x)) <= w) /\
  (forall x, bfin (f x) -> bfin x /\ Rabs (bval x) <= 1).
(** stored vectors of three entries *)
Definition stored3 (M : R) (x : v3 b64) (v : vec3) : Prop :=
  bfin (w0 x) /\ bfin (w1 x) /\ bfin (w2 x) /\ v = V3 (bval (w0 x)) (bval (w1 x)) (bval (w2 x)) /\ norm v <= M.
(** a stored axis: each entry within 2^-50 of the unit axis *)
Definition stored_axis3 (x : v3 b64) (k : vec3) : Prop :=
  unit3 k /\ bfin (w0 x) /\ bfin (w1 x) /\ bfin (w2 x) /\
  Rabs (bval (w0 x) - vx k) <= bpow radix2 (-50) /\ Rabs (bval (w1 x) - vy k) <= bpow radix2 (-50) /\ Rabs (bval (w2 x) - vz k) <= bpow radix2 (-50).
(** the displacement of subproblem 4, p . rot(k, t) q, and its derivative with respect to t *)
Definition displacement (p q k : vec3) (t : R) : R := dot p (rotate k t q).
Definition turn_rate (p q k : vec3) (t : R) : R := dot p (cross k (rotate k t q)).
