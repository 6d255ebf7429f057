(** Specifications for the inverse kinematics. *)
From Coq Require Import Reals ZArith List Sorting.Permutation Sorting.Sorted.
From Verif Require Import LinAlg RealAux Py SpecRot ModelTransform ModelRobot SpecKin SpecSub.
Import ListNotations.
Open Scope R_scope.

(** numpy's order of floats: NaN last *)
Definition flt_le (a b : flt R) : Prop :=
  match a, b with Fin x, Fin y => x <= y | _, NaN => True | NaN, Fin _ => False end.
(** What [np.argsort] promises: a permutation of the indices that sorts. *)
Definition argsort_spec (argsort : list (flt R) -> list nat) : Prop :=
  forall l, Permutation (argsort l) (seq 0 (length l)) /\
            StronglySorted flt_le (map (fun i => nth i l NaN) (argsort l)).

(** A list sorted by a distance. *)
Definition nearest_first {A} (d : A -> R) (l : list A) : Prop := StronglySorted (fun a b => d a <= d b) l.

(** Euclidean distance of joint vectors *)
Definition euclid (a b : list R) : R := sqrt (fold_right Rplus 0 (map (fun p => (fst p - snd p) * (fst p - snd p)) (combine a b))).

(** The limits of joint j, when both arrays are present. *)
Definition limits_of (r : robot) (j : nat) (l u : R) : Prop :=
  exists ls us, rlower r = Some ls /\ rupper r = Some us /\ nth_error ls j = Some l /\ nth_error us j = Some u.
Definition no_limits (r : robot) : Prop := rlower r = None \/ rupper r = None.
(** theta is allowed for joint j: strictly inside the limits, if any *)
Definition allowed (r : robot) (j : nat) (theta : R) : Prop := forall l u, limits_of r j l u -> l < theta < u.
(** Joint vectors equal up to whole turns. *)
Definition turns_eq (a b : list R) : Prop := Forall2 ang_eq a b.

(** A six-axis robot with parallel second and third axes along y and a spherical wrist
    ("OPW"): the geometry robot6_sphericalwrist_invkin is written for. *)
Record opw (r : robot) (h0 h1 h2 h3 h4 h5 p0 p1 p2 p3 p4 p5 p6 : vec3) : Prop := {
  opw_wf : wf_robot r;
  opw_types : rtype r = [Rotary; Rotary; Rotary; Rotary; Rotary; Rotary];
  opw_H : rH r = [h0; h1; h2; h3; h4; h5];
  opw_P : rP r = [p0; p1; p2; p3; p4; p5; p6];
  opw_h1 : h1 = ey \/ h1 = vneg ey;
  opw_h2 : h2 = ey \/ h2 = vneg ey;
  opw_p0 : on_axis h0 p0;
  opw_p0y : vy p0 = 0;
  opw_p4 : on_axis h3 p4;
  opw_p5 : on_axis h5 p5;
  opw_34 : dot h3 h4 = 0;
  opw_35 : h5 = h3 \/ h5 = vneg h3 }.
(** Turning v by t about k leaves it alone or moves it by at least sqrt(eps). *)
Definition clear_move (k : vec3) (t : R) (v : vec3) : Prop := rotate k t v = v \/ sqrt_eps <= norm (vsub (rotate k t v) v).
(** Joint vector q puts the tool exactly at the pose. *)
Definition reaches (r : robot) (q : list R) (pose : transform) : Prop := forall x, robot_point r q x = act pose x.

(** A UR robot: axes z, y, y, y, -z, y (or with -y), the first link vector along the first
    axis and the last but one along the last axis. *)
Record ur (r : robot) (h p0 p1 p2 p3 p4 p5 p6 : vec3) : Prop := {
  ur_wf : wf_robot r;
  ur_types : rtype r = [Rotary; Rotary; Rotary; Rotary; Rotary; Rotary];
  ur_h : h = ey \/ h = vneg ey;
  ur_H : rH r = [ez; h; h; h; vneg ez; h];
  ur_P : rP r = [p0; p1; p2; p3; p4; p5; p6];
  ur_p0 : on_axis ez p0;
  ur_p5 : on_axis h p5 }.

(** The equation of the first joint, [ey . rotate(h0, -t, v) = d], is met or undercut by some
    angle and missed by another. *)
Definition base_solvable (h0 v : vec3) (d : R) : Prop :=
  exists s t, dot ey (rotate h0 (- s) v) <= d /\ dot ey (rotate h0 (- t) v) <> d.
(** Limits that lie within a half turn either way, or reach beyond it on both sides. *)
Definition narrow (l u : R) : Prop := - PI <= l /\ u <= PI.
Definition wide (l u : R) : Prop := l < - PI /\ PI < u.
Definition ur_limits (r : robot) : Prop :=
  no_limits r \/
  ((forall l u, limits_of r 1 l u -> narrow l u \/ wide l u) /\
   (forall l u, limits_of r 2 l u -> narrow l u) /\
   (forall l u, limits_of r 3 l u -> narrow l u \/ wide l u)).

(** The point of the last frame where the tool point x is. *)
Definition point6 (r : robot) (x : vec3) : vec3 := act_opt (rflange r) (act_tool r x).
(** At the pose, the last joint has orientation A and the centre of the wrist is at v (both
    seen from the base); [w] leads from the wrist to the last frame. *)
Definition wrist_of (r : robot) (pose : transform) (w : vec3) (A : mat3) (v : vec3) : Prop :=
  forall x, act pose x = act_opt (rbase r) (vadd v (mvec A (vadd w (point6 r x)))).
