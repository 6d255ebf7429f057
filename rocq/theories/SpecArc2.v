(** What arctan2 of the math library guarantees in the upper half plane, and stored matrices. *)
From Coq Require Import Reals.
From Verif Require Import LinAlg RealAux ModelFloat FactsB64.
Open Scope R_scope.

Definition libm_atan2_ok (L : libm) (w : R) : Prop :=
  forall y x, bfin y -> bfin x -> 0 < bval y -> bfin (m_atan2 L y x) /\ Rabs (bval (m_atan2 L y x) - atan2 (bval y) (bval x)) <= w.

(** a finite number within e of v *)
Definition near (e : R) (x : b64) (v : R) : Prop := bfin x /\ Rabs (bval x - v) <= e.
(** each entry of the stored matrix within e of that of Q *)
Definition stored_matrix (e : R) (M : m3 b64) (Q : mat3) : Prop :=
  (near e (w0 (w0 M)) (m00 Q) /\ near e (w1 (w0 M)) (m01 Q) /\ near e (w2 (w0 M)) (m02 Q)) /\
  (near e (w0 (w1 M)) (m10 Q) /\ near e (w1 (w1 M)) (m11 Q) /\ near e (w2 (w1 M)) (m12 Q)) /\
  (near e (w0 (w2 M)) (m20 Q) /\ near e (w1 (w2 M)) (m21 Q) /\ near e (w2 (w2 M)) (m22 Q)).
