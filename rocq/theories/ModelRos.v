(** Model of ros_msg.py:39-264 and of the transform lookups of ros_tf.py:69-79. *)
From Coq Require Import Reals String List Bool.
From Verif Require Import LinAlg RealAux Py ModelRot ModelTransform.
Import ListNotations.
Open Scope R_scope.

(* ---- numeric messages, over any scalar type (geometry_msgs constructors store their
        arguments unchanged) ---- *)
Record qmsg (A : Type) := Qmsg { q_x : A; q_y : A; q_z : A; q_w : A }.
Record vmsg (A : Type) := Vmsg { v_x : A; v_y : A; v_z : A }.
Record twistmsg (A : Type) := Twistmsg { tw_linear : vmsg A; tw_angular : vmsg A }.
Record wrenchmsg (A : Type) := Wrenchmsg { wr_force : vmsg A; wr_torque : vmsg A }.
Arguments Qmsg {A}. Arguments q_x {A}. Arguments q_y {A}. Arguments q_z {A}. Arguments q_w {A}.
Arguments Vmsg {A}. Arguments v_x {A}. Arguments v_y {A}. Arguments v_z {A}.
Arguments Twistmsg {A}. Arguments tw_linear {A}. Arguments tw_angular {A}.
Arguments Wrenchmsg {A}. Arguments wr_force {A}. Arguments wr_torque {A}.

(** ros_msg.py:39-48 [msg2q].  Arrays are lists of their entries in row-major order. *)
Definition msg2q {A} (m : qmsg A) : list A := [q_w m; q_x m; q_y m; q_z m].
(** ros_msg.py:50-60 [q2msg]; [np.reshape(q, (4,))] raises ValueError for another size. *)
Definition q2msg {A} (q : list A) : out (qmsg A) :=
  match q with [q0; q1; q2; q3] => Ok (Qmsg q1 q2 q3 q0) | _ => Err ValueError end.
(** ros_msg.py:84-93 [msg2p], 107-116 [point_msg2p] (Vector3 and Point have the same
    fields) *)
Definition msg2p {A} (m : vmsg A) : list A := [v_x m; v_y m; v_z m].
Definition point_msg2p {A} (m : vmsg A) : list A := [v_x m; v_y m; v_z m].
(** ros_msg.py:95-105 [p2msg], 118-128 [p2point_msg] *)
Definition p2msg {A} (p : list A) : out (vmsg A) :=
  match p with [a; b; c] => Ok (Vmsg a b c) | _ => Err ValueError end.
Definition p2point_msg {A} (p : list A) : out (vmsg A) :=
  match p with [a; b; c] => Ok (Vmsg a b c) | _ => Err ValueError end.
(** ros_msg.py:221-231 [msg2twist] *)
Definition msg2twist {A} (m : twistmsg A) : list A :=
  [v_x (tw_angular m); v_y (tw_angular m); v_z (tw_angular m); v_x (tw_linear m); v_y (tw_linear m); v_z (tw_linear m)].
(** ros_msg.py:233-244 [twist2msg] *)
Definition twist2msg {A} (t : list A) : out (twistmsg A) :=
  match t with [a; b; c; d; e; f] => Ok (Twistmsg (Vmsg d e f) (Vmsg a b c)) | _ => Err ValueError end.
(** ros_msg.py:246-256 [msg2wrench] *)
Definition msg2wrench {A} (m : wrenchmsg A) : list A :=
  [v_x (wr_torque m); v_y (wr_torque m); v_z (wr_torque m); v_x (wr_force m); v_y (wr_force m); v_z (wr_force m)].
(** ros_msg.py:258-269 [wrench2msg] *)
Definition wrench2msg {A} (t : list A) : out (wrenchmsg A) :=
  match t with [a; b; c; d; e; f] => Ok (Wrenchmsg (Vmsg d e f) (Vmsg a b c)) | _ => Err ValueError end.

(* ---- message objects as seen by msg2transform: Python objects with attributes ---- *)
Inductive obj :=
| Num (x : R)
| Str (s : string)
| Obj (attrs : list (string * obj)).
Fixpoint find_attr (k : string) (l : list (string * obj)) : option obj :=
  match l with [] => None | (k', v) :: l' => if String.eqb k k' then Some v else find_attr k l' end.
Definition attr (o : obj) (k : string) : option obj := match o with Obj l => find_attr k l | _ => None end.
Definition hasattr (o : obj) (k : string) : bool := match attr o k with Some _ => true | None => false end.
Definition getattr (o : obj) (k : string) : out obj := match attr o k with Some v => Ok v | None => Err AttributeError end.
(** A field used as a number.  Simplification: anything else is a TypeError (numpy's
    arithmetic on object arrays). *)
Definition get_num (o : obj) (k : string) : out R :=
  let* v := getattr o k in match v with Num x => Ok x | _ => Err TypeError end.
(** A frame name; names are stored unchecked, this model only follows strings. *)
Definition get_str (o : obj) (k : string) : out string :=
  let* v := getattr o k in match v with Str s => Ok s | _ => Err TypeError end.

(** ros_msg.py:62-71 [msg2R] on an object (fields are read in the order w, x, y, z) *)
Definition obj2R (o : obj) : out mat3 :=
  let* w := get_num o "w" in let* x := get_num o "x" in let* y := get_num o "y" in let* z := get_num o "z" in
  Ok (q2R (Q4 w x y z)).
(** [msg2p] on an object *)
Definition obj2p (o : obj) : out vec3 :=
  let* x := get_num o "x" in let* y := get_num o "y" in let* z := get_num o "z" in Ok (V3 x y z).

(** ros_msg.py:130-165 [msg2transform] *)
Definition msg2transform (o : obj) : out transform :=
  if (hasattr o "translation" && hasattr o "rotation")%bool then
    let* r := getattr o "rotation" in let* A := obj2R r in
    let* t := getattr o "translation" in let* p := obj2p t in
    Ok (Tf A p None None)
  else if (hasattr o "header" && hasattr o "transform")%bool then
    let* tr := getattr o "transform" in
    let* r := getattr tr "rotation" in let* A := obj2R r in
    let* t := getattr tr "translation" in let* p := obj2p t in
    let* h := getattr o "header" in let* parent := get_str h "frame_id" in
    let* child := get_str o "child_frame_id" in
    Ok (Tf A p (Some parent) (Some child))
  else if (hasattr o "position" && hasattr o "orientation")%bool then
    let* r := getattr o "orientation" in let* A := obj2R r in
    let* t := getattr o "position" in let* p := obj2p t in
    Ok (Tf A p None None)
  else if (hasattr o "header" && hasattr o "pose")%bool then
    let* ps := getattr o "pose" in
    let* r := getattr ps "orientation" in let* A := obj2R r in
    let* t := getattr ps "position" in let* p := obj2p t in
    let* h := getattr o "header" in let* parent := get_str h "frame_id" in
    Ok (Tf A p (Some parent) None)
  else Err AssertionError.

(** The geometry_msgs types with their fields. *)
Definition Vector3_obj (v : vec3) : obj := Obj [("x", Num (vx v)); ("y", Num (vy v)); ("z", Num (vz v))]%string.
Definition Quaternion_obj (q : quat) : obj :=
  Obj [("x", Num (q1 q)); ("y", Num (q2 q)); ("z", Num (q3 q)); ("w", Num (q0 q))]%string.
Definition Transform_obj (t r : obj) : obj := Obj [("translation", t); ("rotation", r)]%string.
Definition Pose_obj (t r : obj) : obj := Obj [("position", t); ("orientation", r)]%string.
Definition Header_obj (frame : string) : obj := Obj [("seq", Num 0); ("stamp", Obj []); ("frame_id", Str frame)]%string.
Definition TransformStamped_obj (h child t : obj) : obj := Obj [("header", h); ("child_frame_id", child); ("transform", t)]%string.
Definition PoseStamped_obj (h p : obj) : obj := Obj [("header", h); ("pose", p)]%string.

(** ros_msg.py:73-82 [R2msg]: [Ok NaN] is a message whose numbers are not finite. *)
Definition R2obj (A : mat3) : out (flt obj) :=
  let* q := R2q A in Ok (match q with Fin q => Fin (Quaternion_obj q) | NaN => NaN end).
Definition with_R (A : mat3) (f : obj -> obj) : out (flt obj) :=
  let* r := R2obj A in Ok (match r with Fin r => Fin (f r) | NaN => NaN end).
(** ros_msg.py:167-176 [transform2msg] *)
Definition transform2msg (T : transform) : out (flt obj) :=
  with_R (tR T) (fun r => Transform_obj (Vector3_obj (tp T)) r).
(** a fresh message has empty frame names *)
Definition name_or_empty (n : option string) : string := match n with Some n => n | None => EmptyString end.
(** ros_msg.py:178-193 [transform2transform_stamped_msg] *)
Definition transform2transform_stamped_msg (T : transform) : out (flt obj) :=
  with_R (tR T) (fun r => TransformStamped_obj (Header_obj (name_or_empty (t_parent T))) (Str (name_or_empty (t_child T)))
                            (Transform_obj (Vector3_obj (tp T)) r)).
(** ros_msg.py:195-204 [transform2pose_msg] *)
Definition transform2pose_msg (T : transform) : out (flt obj) :=
  with_R (tR T) (fun r => Pose_obj (Vector3_obj (tp T)) r).
(** ros_msg.py:206-219 [transform2pose_stamped_msg] *)
Definition transform2pose_stamped_msg (T : transform) : out (flt obj) :=
  with_R (tR T) (fun r => PoseStamped_obj (Header_obj (name_or_empty (t_parent T))) (Pose_obj (Vector3_obj (tp T)) r)).

(* ---- ros_tf.py ---- *)
(** ros_tf.py:69-73 and 75-79 [lookupTransform], [lookupTransformFull]: the listener
    answers with a translation and an x, y, z, w quaternion, or raises. *)
Definition lookup_transform (answer : out (list R * list R)) (target source : string) : out transform :=
  let* tr := answer in
  let* w := index (snd tr) 3 in let* x := index (snd tr) 0 in let* y := index (snd tr) 1 in let* z := index (snd tr) 2 in
  match as_row3 (fst tr) with
  | Some p => Ok (Tf (q2R (Q4 w x y z)) p (Some target) (Some source))
  | None => Err AssertionError
  end.
