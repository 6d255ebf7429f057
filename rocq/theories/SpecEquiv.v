(** Specifications for equivalent_configurations and iterative_invkin. *)
From Coq Require Import Reals ZArith List.
From Verif Require Import LinAlg RealAux Py ModelRot SpecRot ModelTransform ModelRobot ModelKin SpecKin.
Import ListNotations.
Open Scope R_scope.

(** b is a with some rotary joints moved by whole turns. *)
Inductive whole_turns : list jtype -> list R -> list R -> Prop :=
| wt_nil : whole_turns [] [] []
| wt_rotary : forall ty a b la lb, ang_eq b a -> whole_turns ty la lb -> whole_turns (Rotary :: ty) (a :: la) (b :: lb)
| wt_fixed : forall j ty a la lb, j <> Rotary -> whole_turns ty la lb -> whole_turns (j :: ty) (a :: la) (a :: lb).

(** q is another configuration of the same pose as theta, inside the closed limits. *)
Definition alternative (r : robot) (theta q : list R) : Prop :=
  q <> theta /\ whole_turns (rtype r) theta q /\ within_limits r q.

(** The position error of T seen from the tool, and a vector with small entries. *)
Definition tool_error (T pose : transform) : vec3 := mvec (mT (tR T)) (vsub (tp T) (tp pose)).
Definition small (e : R) (v : vec3) : Prop := Rabs (vx v) < e /\ Rabs (vy v) < e /\ Rabs (vz v) < e.
(** T is the pose turned by t about k (in the tool frame). *)
Definition turned (pose T : transform) (k : vec3) (t : R) : Prop :=
  unit3 k /\ 0 <= t <= PI /\ forall x, mvec (tR T) x = mvec (tR pose) (rotate k t x).
(** q is p with every joint moved by whole turns so that it is within half a turn of the seed. *)
Definition near_seed (seed p q : list R) : Prop :=
  length q = length seed /\ length p = length seed /\
  forall i, (i < length seed)%nat -> ang_eq (nth i q 0) (nth i p 0) /\ - PI < nth i seed 0 - nth i q 0 <= PI.
(** The errors as the loop measures them. *)
Definition measured (r : robot) (pose : transform) (q : list R) (s e : vec3) : Prop :=
  exists T k theta, fwdkin r q true = Ok T /\ R2rot (mmul (mT (tR pose)) (tR T)) = Fin (k, theta) /\
    s = vscale (sin (theta / 2)) (axis_vec k) /\ e = tool_error T pose.
(** One step of the descent: subtract the pseudo-inverse applied to the weighted errors. *)
Definition descent (pinv : list vec6 -> vec6 -> out (list R)) (r : robot) (pose : transform) (Kp KR : mat3) (q q' : list R) : Prop :=
  exists T J s e delta, fwdkin r q true = Ok T /\ robotjacobian r q true = Ok J /\ measured r pose q s e /\
    pinv (map (fun c => V6 (mvec (mT (tR T)) (hi3 c)) (mvec (mT (tR T)) (lo3 c))) J) (V6 (mvec KR s) (mvec Kp e)) = Ok delta /\
    length delta = length (rtype r) /\ length q' = length (rtype r) /\
    forall i, (i < length (rtype r))%nat -> nth i q' 0 = nth i q 0 - nth i delta 0.
(** The orientation error E is close to a half turn whose axis R2rot misreads: no x part, a small
    y part, and the entry [0,2] zero. *)
Definition misread (tol : R) (E : mat3) : Prop :=
  m02 E = 0 /\ (1 + m00 E) / 2 <= 1 / 1000000 * (1 / 1000000) /\ 1 / 1000000 * (1 / 1000000) < (1 + m11 E) / 2 < tol * tol.
