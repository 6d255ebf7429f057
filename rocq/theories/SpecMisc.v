(** Specifications for random rotations and for the texts of a Transform. *)
From Coq Require Import Reals List String Ascii.
From Verif Require Import LinAlg RealAux Py ModelTransform.
Open Scope R_scope.

(** np.random.rand gives numbers in [0, 1). *)
Definition drawn (x : R) : Prop := 0 <= x < 1.
Definition drawn4 (q : quat) : Prop := drawn (q0 q) /\ drawn (q1 q) /\ drawn (q2 q) /\ drawn (q3 q).
Definition drawn3 (v : vec3) : Prop := drawn (vx v) /\ drawn (vy v) /\ drawn (vz v).
(** The text contains no double quote. *)
Fixpoint quoteless (s : string) : Prop :=
  match s with EmptyString => True | String c s' => Ascii.nat_of_ascii c <> 34%nat /\ quoteless s' end.
Definition quoteless_opt (o : option string) : Prop := match o with Some s => quoteless s | None => True end.
