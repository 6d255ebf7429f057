(** What it means that an inverse kinematics program finds a vector of joint values. *)
From Coq Require Import Reals ZArith List.
From Verif Require Import LinAlg RealAux SpecRpy ModelFloat FactsB64 SpecRound.
Import ListNotations.
Open Scope R_scope.

(** every joint value lies inside its limits with room to spare *)
Definition clear_of (ls us : list b64) (m : R) (q : list R) : Prop :=
  forall i a, nth_error q i = Some a -> exists l u : b64, nth_error ls i = Some l /\ nth_error us i = Some u /\ bfin l /\ bfin u /\ bval l + m <= a <= bval u - m.
(** the joint values are the same angles, each up to its own error *)
Definition same_angles (e : list R) (x : list b64) (q : list R) : Prop :=
  length x = length q /\ forall i y a d, nth_error x i = Some y -> nth_error q i = Some a -> nth_error e i = Some d -> same_angle d (bval y) a.
(** one joint value lies inside its limits with room to spare *)
Definition clear_at (ls us : list b64) (i : nat) (m a : R) : Prop :=
  exists l u : b64, nth_error ls i = Some l /\ nth_error us i = Some u /\ bfin l /\ bfin u /\ bval l + m <= a <= bval u - m.
(** the limits of a joint lie within a half turn either way *)
Definition half_turn (ls us : list b64) (i : nat) : Prop :=
  forall l u : b64, nth_error ls i = Some l -> nth_error us i = Some u -> - PI <= bval l /\ bval u <= PI.

(** every joint value lies within 5/4 rad of the entry of last_joints *)
Definition near_last (last : list b64) (q : list R) : Prop :=
  forall i a, nth_error q i = Some a -> exists lj : b64, nth_error last i = Some lj /\ bfin lj /\ Rabs (bval lj - a) <= 5 / 4.
(** the joint values are the same numbers, each up to its own error: no whole turns between them *)
Definition close_joints (e : list R) (x : list b64) (q : list R) : Prop :=
  length x = length q /\ forall i y a d, nth_error x i = Some y -> nth_error q i = Some a -> nth_error e i = Some d -> Rabs (bval y - a) <= d.
