(** Specifications for the subproblems. *)
From Coq Require Import Reals.
From Verif Require Import LinAlg RealAux SpecRot.
Open Scope R_scope.

(** The part of v orthogonal to the unit axis k. *)
Definition perp (k v : vec3) : vec3 := vsub v (vscale (dot v k) k).
(** v lies on the axis k *)
Definition on_axis (k v : vec3) : Prop := perp k v = vzero.
(** The direction of v. *)
Definition dir (v : vec3) : vec3 := vscale (/ norm v) v.
(** a and b point the same way: b = s a for some s > 0 (both non-zero) *)
Definition same_direction (a b : vec3) : Prop := a <> vzero /\ exists s, 0 < s /\ b = vscale s a.

(** The circles of p about k2 and of q about k1 lie in the planes v.k2 = p.k2 and
    v.k1 = q.k1.  [cone_gap] is the squared distance, along the line where the planes
    meet, from the plane of the axes to the sphere |v| = |p|: positive when the circles cross
    in two points, zero when they touch, negative when they miss. *)
Definition cone_gap (p q k1 k2 : vec3) : R :=
  dot p p - (dot q k1 * dot q k1 + dot p k2 * dot p k2 - 2 * dot k1 k2 * dot p k2 * dot q k1) / (1 - dot k1 k2 * dot k1 k2).
(** (t1, t2) solves subproblem 2 with error e *)
Definition sp2_error (p q k1 k2 : vec3) (t1 t2 : R) : R :=
  norm (vsub (rotate k1 t1 (rotate k2 t2 p)) q).
