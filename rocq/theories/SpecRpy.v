(** Angles up to whole turns, and what arctan2 of the math library guarantees in the whole plane. *)
From Coq Require Import Reals ZArith.
From Verif Require Import LinAlg RealAux ModelFloat FactsB64.
Open Scope R_scope.

(** t is within e of u after some whole turns *)
Definition same_angle (e t u : R) : Prop := exists k : Z, Rabs (t - u - 2 * PI * IZR k) <= e.
(** the direction of (x, y), within w; at the negative x axis either sign *)
Definition libm_angle_ok (L : libm) (w : R) : Prop :=
  forall y x, bfin y -> bfin x -> 0 < bval x * bval x + bval y * bval y ->
    bfin (m_atan2 L y x) /\
    exists t, - PI <= t <= PI /\ Rabs (bval (m_atan2 L y x) - t) <= w /\
      bval x = sqrt (bval x * bval x + bval y * bval y) * cos t /\ bval y = sqrt (bval x * bval x + bval y * bval y) * sin t.
(** sin and cos of finite numbers are finite *)
Definition libm_total (L : libm) : Prop := forall x, bfin x -> bfin (m_sin L x) /\ bfin (m_cos L x).
