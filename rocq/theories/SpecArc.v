(** What the inverse trigonometric functions of the math library guarantee, and the sizes of the
    stored vectors. *)
From Coq Require Import Reals List.
From Flocq Require Import Core.Core.
From Verif Require Import LinAlg RealAux SpecRot ModelFloat FactsB64.
Import ListNotations.
Open Scope R_scope.

(** arctan2 in the first quadrant and arccos, within w *)
Definition libm_arc_ok (L : libm) (w : R) : Prop :=
  (forall y x, bfin y -> bfin x -> 0 <= bval y -> 0 <= bval x -> 0 < bval y + bval x ->
     bfin (m_atan2 L y x) /\ Rabs (bval (m_atan2 L y x) - atan2 (bval y) (bval x)) <= w) /\
  (forall x, bfin x -> Rabs (bval x) <= 1 -> bfin (m_acos L x) /\ Rabs (bval (m_acos L x) - acos (bval x)) <= w).

(** |q + rot(k, t) p| squared *)
Definition reach_sq (k p q : vec3) (t : R) : R := dot (vadd q (rotate k t p)) (vadd q (rotate k t p)).
(** the stored vectors: finite, of length at most M *)
Definition stored (M : R) (l : list b64) (v : vec3) : Prop :=
  exists a b c, l = [a; b; c] /\ bfin a /\ bfin b /\ bfin c /\ v = V3 (bval a) (bval b) (bval c) /\ norm v <= M.
(** the stored axis: each entry within 2^-50 of the unit axis *)
Definition stored_axis (l : list b64) (k : vec3) : Prop :=
  unit3 k /\ exists a b c, l = [a; b; c] /\ bfin a /\ bfin b /\ bfin c /\
    Rabs (bval a - vx k) <= bpow radix2 (-50) /\ Rabs (bval b - vy k) <= bpow radix2 (-50) /\ Rabs (bval c - vz k) <= bpow radix2 (-50).
(** sizes far from overflow and underflow *)
Definition moderate (M : R) : Prop := bpow radix2 (-380) <= M <= bpow radix2 380.
