(** Stored quaternions. *)
From Coq Require Import Reals.
From Verif Require Import LinAlg ModelFloat ModelFloat4 FactsB64 SpecArc2.
Open Scope R_scope.

(** each entry of the stored quaternion within e of that of q *)
Definition stored_quat (e : R) (x : v4 b64) (q : quat) : Prop :=
  near e (y0 x) (q0 q) /\ near e (y1 x) (q1 q) /\ near e (y2 x) (q2 q) /\ near e (y3 x) (q3 q).
