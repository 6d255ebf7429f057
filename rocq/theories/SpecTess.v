(** Specifications for scene graphs, environments and the solver parameters. *)
From Coq Require Import Reals ZArith String List.
From Verif Require Import LinAlg RealAux Py SpecRot ModelRot ModelTransform ModelRobot SpecKin ModelTess.
Import ListNotations.
Open Scope R_scope.

(** What a joint at value t does to a point given in its child link. *)
Definition joint_place (j : tjoint) (t : R) (x : vec3) : vec3 :=
  act (tj_origin j)
    (match tj_kind j, tj_axis j with
     | TRevolute, Some h => rotate h t x
     | TPrismatic, Some h => vadd (vscale t h) x
     | _, _ => x
     end).

(** [placed g q root l f]: walking the joints of g from root to link l, with joint values q
    by joint name, carries points of l by f. *)
Inductive placed (g : sgraph) (q : string -> R) (root : string) : string -> (vec3 -> vec3) -> Prop :=
| placed_root : placed g q root root (fun x => x)
| placed_joint : forall j f, In j (sg_joints g) -> placed g q root (tj_parent j) f ->
    placed g q root (tj_child j) (fun x => f (joint_place j (q (tj_name j)) x)).

(** The value of joint names[i] is theta[i]. *)
Definition assigns (q : string -> R) (names : list string) (theta : list R) : Prop :=
  Forall2 (fun n t => q n = t) names theta.

(** The robot without its base transform, and where it puts a point given in its flange frame
    (tool left out). *)
Definition without_base (r : robot) : robot :=
  Rb (rH r) (rP r) (rtype r) (rlower r) (rupper r) (rvel r) (racc r) (rM r) (rRtool r) (rptool r) (rnames r) (rroot r)
     (rtip r) (rflange r) None.
Definition flange_point (r : robot) (theta : list R) (x : vec3) : vec3 :=
  vadd (hd vzero (rP r)) (chain (rtype r) (rH r) (tl (rP r)) theta (act_opt (rflange r) x)).
Definition world_flange (r : robot) (theta : list R) (x : vec3) : vec3 := act_opt (rbase r) (flange_point r theta x).

(** [serial links pairs]: each link is joined to the one before it. *)
Fixpoint serial (l : list string) : list (string * string) :=
  match l with
  | a :: ((b :: _) as l') => (a, b) :: serial l'
  | _ => []
  end.

(** Decimal numerals: the documented names link_1, link_2, ... *)
Definition link_name (i : nat) : string := ("link_" ++ str_nat i)%string.
Definition joint_name (i : nat) : string := ("joint_" ++ str_nat i)%string.
Definition has_tool (r : robot) : Prop := rRtool r <> None /\ rptool r <> None.
Definition tool_links (r : robot) : list string :=
  match rRtool r, rptool r with Some _, Some _ => ["tool_tcp"%string] | _, _ => [] end.
Definition flange_links (r : robot) : list string :=
  match rflange r with Some _ => ["flange"%string] | None => [] end.
(** The documented links, and the joints in the same order. *)
Definition graph_links (r : robot) : list string :=
  "base_link"%string :: map link_name (seq 1 (List.length (rtype r))) ++ ["chain_tip"%string] ++ flange_links r ++ tool_links r.
Definition moving_joints (r : robot) : list string :=
  match rnames r with Some l => l | None => map joint_name (seq 1 (List.length (rtype r))) end.
Definition fixed_joints (r : robot) : list string :=
  [(link_name (List.length (rtype r)) ++ "_to_chain_tip")%string]
  ++ match rflange r with Some _ => ["tip_to_flange"%string] | None => [] end
  ++ match rRtool r, rptool r with Some _, Some _ => ["tip_to_tool"%string] | _, _ => [] end.

(** What a robot must have to become a scene graph. *)
Record graphable (r : robot) : Prop := {
  gr_some : (0 < List.length (rtype r))%nat;
  gr_plain : Forall plain_type (rtype r);
  gr_limits : exists lo up ve ac, rlower r = Some lo /\ rupper r = Some up /\ rvel r = Some ve /\ racc r = Some ac /\
    (List.length (rtype r) <= List.length lo)%nat /\ (List.length (rtype r) <= List.length up)%nat /\
    (List.length (rtype r) <= List.length ve)%nat /\ (List.length (rtype r) <= List.length ac)%nat;
  gr_names : List.length (moving_joints r) = List.length (rtype r);
  gr_unique : NoDup (moving_joints r ++ fixed_joints r) }.

(** A moving joint of the graph carries the robot's data. *)
Definition carries (r : robot) (i : nat) (j : tjoint) : Prop :=
  exists l, tj_limits j = Some l /\
  nth_error (rH r) i = tj_axis j /\
  nth_error (rP r) i = Some (tp (tj_origin j)) /\
  nth_error (rtype r) i = match tj_kind j with TRevolute => Some Rotary | TPrismatic => Some Prismatic | TFixed => None end /\
  (exists lo, rlower r = Some lo /\ nth_error lo i = Some (l_lower l)) /\
  (exists up, rupper r = Some up /\ nth_error up i = Some (l_upper l)) /\
  (exists ve, rvel r = Some ve /\ nth_error ve i = Some (l_vel l)) /\
  (exists ac, racc r = Some ac /\ nth_error ac i = Some (l_acc l)).

(** Denavit-Hartenberg: turn about z, shift along z and x, turn about x. *)
Definition dh (a alpha d t : R) (x : vec3) : vec3 := rotate ez t (vadd (V3 a 0 d) (rotate ex alpha x)).
(** The UR arm with Denavit-Hartenberg parameters d1 a2 a3 d4 d5 d6
    (universal-robots.com, DH parameters). *)
Definition ur_dh (p : ur_params) (q1 q2 q3 q4 q5 q6 : R) (x : vec3) : vec3 :=
  dh 0 (PI / 2) (u_d1 p) q1 (dh (u_a2 p) 0 0 q2 (dh (u_a3 p) 0 0 q3
    (dh 0 (PI / 2) (u_d4 p) q4 (dh 0 (- (PI / 2)) (u_d5 p) q5 (dh 0 0 (u_d6 p) q6 x))))).
(** Tesseract's UR solver works between a base turned by half a turn about z and the last DH
    frame. *)
Definition ur_solves (p : ur_params) (f : list R -> vec3 -> vec3) : Prop :=
  forall q1 q2 q3 q4 q5 q6 x, f [q1; q2; q3; q4; q5; q6] x = rotate ez PI (ur_dh p q1 q2 q3 q4 q5 q6 x).

(** The OPW arm (opw_kinematics, forward kinematics): joint values are corrected by signs and
    offsets, the arm stands upright at zero. *)
Definition opw_angle (p : opw_params) (i : nat) (q : R) : R := nth i (o_signs p) 0 * q - nth i (o_offsets p) 0.
Definition opw_arm (p : opw_params) (q1 q2 q3 q4 q5 q6 : R) (x : vec3) : vec3 :=
  rotate ez (opw_angle p 0 q1) (vadd (V3 (o_a1 p) (o_b p) (o_c1 p))
  (rotate ey (opw_angle p 1 q2) (vadd (V3 0 0 (o_c2 p))
  (rotate ey (opw_angle p 2 q3) (vadd (V3 (o_a2 p) 0 (o_c3 p))
  (rotate ez (opw_angle p 3 q4) (rotate ey (opw_angle p 4 q5) (rotate ez (opw_angle p 5 q6)
  (vadd (V3 0 0 (o_c4 p)) x))))))))).
Definition opw_solves (p : opw_params) (f : list R -> vec3 -> vec3) : Prop :=
  forall q1 q2 q3 q4 q5 q6 x, f [q1; q2; q3; q4; q5; q6] x = opw_arm p q1 q2 q3 q4 q5 q6 x.
(** p is p0 with lengths rounded to six and offsets to eight decimals. *)
Definition within (e a b : R) : Prop := Rabs (a - b) <= e.
Record rounded (p p0 : opw_params) : Prop := {
  rd_a1 : within (1/2000000) (o_a1 p) (o_a1 p0);
  rd_a2 : within (1/2000000) (o_a2 p) (o_a2 p0);
  rd_b : within (1/2000000) (o_b p) (o_b p0);
  rd_c1 : within (1/2000000) (o_c1 p) (o_c1 p0);
  rd_c2 : within (1/2000000) (o_c2 p) (o_c2 p0);
  rd_c3 : within (1/2000000) (o_c3 p) (o_c3 p0);
  rd_c4 : within (1/2000000) (o_c4 p) (o_c4 p0);
  rd_off : Forall2 (within (1/200000000)) (o_offsets p) (o_offsets p0);
  rd_sign : o_signs p = o_signs p0 }.

Definition along (h e : vec3) : Prop := h = e \/ h = vneg e.
(** A robot whose numbers are exactly of the OPW form, outstretched along e (x or z) at zero.
    Offsets across the arm are 0 or larger than numpy's tolerance. *)
Definition not_tiny (x : R) : Prop := x = 0 \/ 1/100000000 < Rabs x.
Record opw_exact (r : robot) (e : vec3) : Prop := {
  oe_type : rtype r = [Rotary; Rotary; Rotary; Rotary; Rotary; Rotary];
  oe_flange : exists a b, rflange r = Some (Tf (of_cols (vneg ez) ey ex) vzero a b);
  oe_geom : exists h1 h2 h3 h4 h5 h6 z0 p1 p2 p3 l4 l5 l6,
    rH r = [h1; h2; h3; h4; h5; h6] /\ rP r = [vscale z0 ez; p1; p2; p3; vscale l4 e; vscale l5 e; vscale l6 e] /\
    along h1 ez /\ along h2 ey /\ along h3 ey /\ along h4 e /\ along h5 ey /\ along h6 e /\
    not_tiny (vx p2) /\ not_tiny (vz p2) }.

(** A robot whose numbers are exactly of the UR form with axes H. *)
Record ur_exact (r : robot) (H : list vec3) : Prop := {
  ue_type : rtype r = [Rotary; Rotary; Rotary; Rotary; Rotary; Rotary];
  ue_H : rH r = H;
  ue_flange : exists a b, rflange r = Some (Tf (of_cols ex ez (vneg ey)) vzero a b);
  ue_base : exists a b, rbase r = Some (Tf (M3 (-1) 0 0 0 (-1) 0 0 0 1) vzero a b);
  ue_P : exists d1 y1 a2 y2 a3 y3 y4 z4 y5 y6,
    rP r = [V3 0 0 d1; V3 0 y1 0; V3 a2 y2 0; V3 a3 y3 0; V3 0 y4 z4; V3 0 y5 0; V3 0 y6 0] }.

(** The entry of a nested dict under a path of keys. *)
Inductive entry : pv -> list string -> pv -> Prop :=
| entry_here : forall d, entry d [] d
| entry_in : forall l k v ks w, In (k, v) l -> entry v ks w -> entry (PDict l) (k :: ks) w.

(** Link l is at pose T. *)
Definition at_pose (g : sgraph) (q : string -> R) (l : string) (T : transform) : Prop :=
  exists f, placed g q "world" l f /\ forall x, f x = act T x.
(** The pose table returned by the library for joint values q: it has an entry for every link of
    the environment, and each entry is where the walk from the world puts the link. *)
Definition table (g : sgraph) (q : string -> R) (frames : string -> option transform) : Prop :=
  (forall l, In l (sg_links g) -> frames l <> None) /\
  (forall l T, frames l = Some T -> rigid T /\ at_pose g q l T).

(** The library's inverse kinematics for an environment whose moving joints are called names:
    every answer puts link tip at the pose, seen from link base. *)
Definition solver_sound (g : sgraph) (names : list string)
  (calc : transform -> string -> string -> list R -> list (list R)) : Prop :=
  forall T base tip seed theta, In theta (calc T base tip seed) -> List.length theta = List.length names /\
  forall q fb ft, assigns q names theta -> placed g q "world" base fb -> placed g q "world" tip ft ->
  forall x, ft x = fb (act T x).

(** Joint vector theta with s added to joint i. *)
Fixpoint bump (theta : list R) (i : nat) (s : R) : list R :=
  match theta, i with
  | [], _ => []
  | t :: theta', O => (t + s) :: theta'
  | t :: theta', S i' => t :: bump theta' i' s
  end.
(** The Jacobian of a pose f at theta, velocity on top: column i has the velocity of the origin and
    the angular velocity when joint i moves at unit speed. *)
Definition velocity_jacobian (f : list R -> transform) (theta : list R) (J : list vec6) : Prop :=
  List.length J = List.length theta /\
  forall i c, nth_error J i = Some c ->
  vderiv (fun s => tp (f (bump theta i s))) 0 (hi3 c) /\
  mderiv (fun s => tR (f (bump theta i s))) 0 (mmul (cross_matrix (lo3 c)) (tR (f theta))).

(** The entries of the params dict of the two closed-form solvers. *)
Definition opw_written (d : pv) (p : opw_params) : Prop :=
  entry d ["a1"%string] (PNum (o_a1 p)) /\ entry d ["a2"%string] (PNum (o_a2 p)) /\ entry d ["b"%string] (PNum (o_b p)) /\
  entry d ["c1"%string] (PNum (o_c1 p)) /\ entry d ["c2"%string] (PNum (o_c2 p)) /\ entry d ["c3"%string] (PNum (o_c3 p)) /\
  entry d ["c4"%string] (PNum (o_c4 p)) /\ entry d ["offsets"%string] (PList (map PNum (o_offsets p))) /\
  exists z, o_signs p = map IZR z /\ entry d ["sign_corrections"%string] (PList (map PInt z)).
Definition ur_written (d : pv) (p : ur_params) : Prop :=
  entry d ["d1"%string] (PNum (u_d1 p)) /\ entry d ["a2"%string] (PNum (u_a2 p)) /\ entry d ["a3"%string] (PNum (u_a3 p)) /\
  entry d ["d4"%string] (PNum (u_d4 p)) /\ entry d ["d5"%string] (PNum (u_d5 p)) /\ entry d ["d6"%string] (PNum (u_d6 p)).
