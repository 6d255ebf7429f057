(** Specifications for the URDF loader. *)
From Coq Require Import Reals String List.
From Verif Require Import LinAlg RealAux SpecRot ModelUrdf.
Import ListNotations.
Open Scope R_scope.

(** The URDF format: fixed-axis roll, pitch, yaw. *)
Definition rpy_turn (a x : vec3) : vec3 :=
  rotate (V3 0 0 1) (vz a) (rotate (V3 0 1 0) (vy a) (rotate (V3 1 0 0) (vx a) x)).
(** From the child frame of a joint (at its zero position) to the parent's. *)
Definition or0 (o : option vec3) : vec3 := match o with Some v => v | None => vzero end.
Definition origin_motion (o : option upose) (x : vec3) : vec3 :=
  match o with
  | Some o => vadd (or0 (o_xyz o)) (match o_rpy o with Some a => rpy_turn a x | None => x end)
  | None => x
  end.
Definition moving (j : ujoint) : bool := match j_kind j with Fixed => false | _ => true end.
(** The axis, (1,0,0) if the element is missing. *)
Definition axis_of (j : ujoint) : vec3 := match j_axis j with Some a => a | None => V3 1 0 0 end.
(** Where a chain of joints puts the point x given in the last link, for the values q of
    its moving joints. *)
Fixpoint urdf_point (js : list ujoint) (q : list R) (x : vec3) : vec3 :=
  match js with
  | [] => x
  | j :: js' =>
      origin_motion (j_origin j)
        (match j_kind j, q with
         | Fixed, _ => urdf_point js' q x
         | Sliding, t :: q' => vadd (vscale t (axis_of j)) (urdf_point js' q' x)
         | _, t :: q' => rotate (axis_of j) t (urdf_point js' q' x)
         | _, [] => urdf_point js' q x
         end)
  end.

(** js leads from the link a to the link b. *)
Inductive path (u : urdf) (a : string) : string -> list ujoint -> Prop :=
| path_here : path u a a []
| path_down : forall j js, path u a (j_parent j) js -> In j (u_joints u) -> j_child j <> a ->
    path u a (j_child j) (js ++ [j]).

(** Names are used once and every link has at most one parent. *)
Record tidy (u : urdf) : Prop := {
  tidy_links : NoDup (map fst (u_links u));
  tidy_joints : NoDup (map j_name (u_joints u));
  tidy_children : NoDup (map j_child (u_joints u)) }.
(** Parents come before children in some ranking. *)
Definition acyclic (u : urdf) : Prop :=
  exists rank : string -> nat, forall j, In j (u_joints u) -> (rank (j_parent j) < rank (j_child j))%nat.
Definition declared (u : urdf) (l : string) : Prop := In l (map fst (u_links u)).
(** Every joint connects declared links. *)
Definition connected (u : urdf) : Prop :=
  forall j, In j (u_joints u) -> declared u (j_parent j) /\ declared u (j_child j).
(** The link without a parent. *)
Definition is_root (u : urdf) (l : string) : Prop := declared u l /\ forall j, In j (u_joints u) -> j_child j <> l.
Definition leaf (u : urdf) (l : string) : Prop := declared u l /\ forall j, In j (u_joints u) -> j_parent j <> l.
(** A leaf reached through no floating joint and at least one moving joint. *)
Definition candidate (u : urdf) (root l : string) : Prop :=
  leaf u l /\ exists js, path u root l js /\ (forall j, In j js -> j_kind j <> Floating) /\
  exists j, In j js /\ j_kind j <> Fixed.

(** The root that is meant: the given link, which must exist, or the only one without a
    parent. *)
Definition root_of (u : urdf) (o : option string) (root : string) : Prop :=
  match o with Some r => r = root /\ declared u r | None => is_root u root /\ forall r', is_root u r' -> r' = root end.
(** The tip that is meant: the given link, or the only candidate. *)
Definition tip_of (u : urdf) (root : string) (o : option string) (tip : string) : Prop :=
  match o with Some t => t = tip | None => candidate u root tip /\ forall t, candidate u root t -> t = tip end.
(** Joints the loader accepts, and moving joints it does not know. *)
Definition supported (j : ujoint) : Prop :=
  j_kind j = Fixed \/ ((j_kind j = Revolute \/ j_kind j = Sliding) /\ j_axis j <> None).
Definition exotic (j : ujoint) : Prop :=
  j_kind j = Continuous \/ j_kind j = Floating \/ j_kind j = Planar \/ j_kind j = Unknown.
Definition unit_axes (js : list ujoint) : Prop := forall j, In j js -> moving j = true -> unit3 (axis_of j).

(** The value of a limit attribute. *)
Definition limit_of (f : ulimit -> option R) (j : ujoint) : option R :=
  match j_limit j with Some l => f l | None => None end.
(** Every joint has the attribute, and these are the values. *)
Definition all_limits (f : ulimit -> option R) (js : list ujoint) (l : list R) : Prop :=
  Forall2 (fun j x => limit_of f j = Some x) js l.

(* ---- inertia ---- *)
(** A body as finitely many point masses (mass, position). *)
Definition body := list (R * vec3).
Fixpoint bsum (f : R -> vec3 -> R) (b : body) : R :=
  match b with [] => 0 | (m, r) :: b' => f m r + bsum f b' end.
(** Twice the kinetic energy of the body turning with w about an origin that moves
    with v. *)
Definition energy2 (b : body) (w v : vec3) : R :=
  bsum (fun m r => m * norm2 (vadd v (cross w r))) b.
Definition com_of (i : uinertial) : vec3 := match i_origin i with Some o => or0 (o_xyz o) | None => vzero end.
(** A vector of the inertial frame in link coordinates. *)
Definition com_turn (i : uinertial) (x : vec3) : vec3 :=
  match i_origin i with Some o => match o_rpy o with Some a => rpy_turn a x | None => x end | None => x end.
(** The inertial element states the body's mass, centre of mass and inertia tensor about
    it; s_k is the position of point k in the inertial frame. *)
Definition describes (i : uinertial) (b : body) (s : vec3 -> vec3) : Prop :=
  (forall r, vadd (com_of i) (com_turn i (s r)) = r) /\
  i_mass i = Some (bsum (fun m _ => m) b) /\
  bsum (fun m r => m * vx (s r)) b = 0 /\ bsum (fun m r => m * vy (s r)) b = 0 /\ bsum (fun m r => m * vz (s r)) b = 0 /\
  i_tensor i = Some (Utensor
    (bsum (fun m r => m * (vy (s r) * vy (s r) + vz (s r) * vz (s r))) b)
    (bsum (fun m r => - (m * (vx (s r) * vy (s r)))) b)
    (bsum (fun m r => - (m * (vx (s r) * vz (s r)))) b)
    (bsum (fun m r => m * (vx (s r) * vx (s r) + vz (s r) * vz (s r))) b)
    (bsum (fun m r => - (m * (vy (s r) * vz (s r)))) b)
    (bsum (fun m r => m * (vx (s r) * vx (s r) + vy (s r) * vy (s r))) b)).
(** The matrix gives the body's kinetic energy for every twist. *)
Definition energy_matrix (M : mat6) (b : body) : Prop :=
  forall w v, dot6 (V6 w v) (m6vec M (V6 w v)) = energy2 b w v.
Definition same_frame (j : ujoint) : Prop := j_origin j = None.
(** The masses along js from the link l, grouped into rigid bodies, each in the frame of
    its first link: a moving joint starts a new body, a fixed one carries the masses
    behind it into the parent's frame. *)
Fixpoint body_masses (mass : string -> body) (l : string) (js : list ujoint) : list body :=
  match js with
  | [] => [mass l]
  | j :: js' =>
      if moving j then mass l :: body_masses mass (j_child j) js'
      else match body_masses mass (j_child j) js' with
           | g :: gs => (mass l ++ map (fun mr => (fst mr, origin_motion (j_origin j) (snd mr))) g) :: gs
           | [] => []
           end
  end.
(** The link has an inertial element that describes the body. *)
Definition link_mass (u : urdf) (l : string) (b : body) : Prop :=
  exists i s, In (l, Some i) (u_links u) /\ describes i b s /\ 1/1000000 < bsum (fun m _ => m) b.
