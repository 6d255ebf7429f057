(** Specifications for the convergence of iterative_invkin. *)
From Coq Require Import Reals List.
From Verif Require Import LinAlg RealAux Py SpecRot ModelTransform ModelRobot ModelKin SpecKin SpecMove SpecEquiv.
Import ListNotations.
Open Scope R_scope.

(** The sum of the absolute values, and the joint values moved by [d]. *)
Definition l1 (d : list R) : R := fold_right (fun x a => Rabs x + a) 0 d.
Definition moved (theta d : list R) : list R := map (fun p => fst p + snd p) (combine theta d).
(** The sum of the distances of the joint values. *)
Definition dist1 (q q' : list R) : R := l1 (map (fun p => fst p - snd p) (combine q q')).
(** [pinv] solves the linear system of J, with a solution at most [c] times as large as the right-hand side. *)
Definition right_inverse (pinv : list vec6 -> vec6 -> out (list R)) (c : R) (J : list vec6) : Prop :=
  forall b, exists d, pinv J b = Ok d /\ length d = length J /\ jac_apply J d = b /\ l1 d <= c * (norm (hi3 b) + norm (lo3 b)).
(** Around [seed] the arm is at most [M] long and the Jacobian, seen from the tool, is never singular. *)
Definition regular (pinv : list vec6 -> vec6 -> out (list R)) (r : robot) (seed : list R) (rho c M : R) : Prop :=
  forall q T J, length q = length seed -> dist1 q seed <= rho -> fwdkin r q true = Ok T -> robotjacobian r q true = Ok J ->
    arm_length (rtype r) (tl (rP r)) q (norm (act_opt (rflange r) (act_tool r vzero))) <= M /\
    right_inverse pinv c (map (fun col => V6 (mvec (mT (tR T)) (hi3 col)) (mvec (mT (tR T)) (lo3 col))) J).
(** T is within [e] of the pose: its position, and the sine of half the angle between the orientations. *)
Definition within (e : R) (pose T : transform) : Prop :=
  norm (vsub (tp T) (tp pose)) <= e /\ exists k t, turned pose T k t /\ sin (t / 2) <= e.
