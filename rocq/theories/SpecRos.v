(** What ROS transform messages mean. *)
From Coq Require Import Reals String List.
From Verif Require Import LinAlg SpecRot ModelTransform SpecKin ModelRos.
Import ListNotations.
Open Scope R_scope.

(** An object with the fields of geometry_msgs/Vector3 or Point, or of Quaternion; it may
    have others too. *)
Definition has_vector (o : obj) (v : vec3) : Prop :=
  attr o "x" = Some (Num (vx v)) /\ attr o "y" = Some (Num (vy v)) /\ attr o "z" = Some (Num (vz v)).
Definition has_quaternion (o : obj) (q : quat) : Prop :=
  attr o "x" = Some (Num (q1 q)) /\ attr o "y" = Some (Num (q2 q)) /\ attr o "z" = Some (Num (q3 q)) /\
  attr o "w" = Some (Num (q0 q)).
(** the object under attribute [k] of [o] *)
Definition under (o : obj) (k : string) (P : obj -> Prop) : Prop := exists v, attr o k = Some v /\ P v.
Definition says_transform (o : obj) (q : quat) (p : vec3) : Prop :=
  under o "rotation" (fun r => has_quaternion r q) /\ under o "translation" (fun t => has_vector t p).
Definition says_pose (o : obj) (q : quat) (p : vec3) : Prop :=
  under o "orientation" (fun r => has_quaternion r q) /\ under o "position" (fun t => has_vector t p).
Definition says_frame (o : obj) (f : string) : Prop := under o "header" (fun h => attr h "frame_id" = Some (Str f)).

Definition has (o : obj) (k : string) : Prop := attr o k <> None.
(** The four kinds of message, told apart by their fields. *)
Inductive kind := KTransform | KTransformStamped | KPose | KPoseStamped.
Definition fields_of (k : kind) : string * string :=
  match k with
  | KTransform => ("translation", "rotation") | KTransformStamped => ("header", "transform")
  | KPose => ("position", "orientation") | KPoseStamped => ("header", "pose")
  end%string.
Definition looks_like (o : obj) (k : kind) : Prop := has o (fst (fields_of k)) /\ has o (snd (fields_of k)).
(** [k] is the first kind, in the order above, that [o] looks like; a real message looks
    like one kind only. *)
Definition rank (k : kind) : nat := match k with KTransform => 0 | KTransformStamped => 1 | KPose => 2 | KPoseStamped => 3 end.
Definition first_like (o : obj) (k : kind) : Prop := looks_like o k /\ forall k', looks_like o k' -> (rank k <= rank k')%nat.

(** What a message of each kind says: quaternion, position, parent and child frame. *)
Definition says (o : obj) (k : kind) (q : quat) (p : vec3) (parent child : option string) : Prop :=
  match k with
  | KTransform => says_transform o q p /\ parent = None /\ child = None
  | KTransformStamped => under o "transform" (fun t => says_transform t q p) /\
      exists f c, says_frame o f /\ attr o "child_frame_id" = Some (Str c) /\ parent = Some f /\ child = Some c
  | KPose => says_pose o q p /\ parent = None /\ child = None
  | KPoseStamped => under o "pose" (fun t => says_pose t q p) /\
      exists f, says_frame o f /\ parent = Some f /\ child = None
  end.

(** A tf tree: every frame has a pose in a common world, and [answer a b] is the answer of
    the listener for target [a] and source [b]: the unit quaternion (x, y, z, w) and the
    translation taking coordinates in [b] to coordinates in [a]. *)
Definition true_answer (pose : string -> transform) (a b : string) (ans : list R * list R) : Prop :=
  exists t q, ans = ([vx t; vy t; vz t], [q1 q; q2 q; q3 q; q0 q]) /\ unit4 q /\
    forall x, act (pose a) (vadd (sandwich q x) t) = act (pose b) x.
