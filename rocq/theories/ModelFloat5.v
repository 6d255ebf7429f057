(** Messages of ros_msg.py over any arithmetic. *)
From Coq Require Import Reals ZArith List Bool.
From Verif Require Import LinAlg RealAux Py ModelRot ModelFloat ModelFloat4.

(** geometry_msgs Quaternion, and Pose or Transform (the same fields under other names) *)
Record gqmsg (T : Type) := GQ { mqx : T; mqy : T; mqz : T; mqw : T }.
Arguments GQ {T}. Arguments mqx {T}. Arguments mqy {T}. Arguments mqz {T}. Arguments mqw {T}.
Record gpose (T : Type) := GPose { pos : v3 T; ori : gqmsg T }.
Arguments GPose {T}. Arguments pos {T}. Arguments ori {T}.

Section Messages.
Context (A : arith).
Notation num := (num A).
(** ros_msg.py:39-48 [msg2q] *)
Definition g_msg2q (m : gqmsg num) : v4 num := W4 (mqw m) (mqx m) (mqy m) (mqz m).
(** ros_msg.py:50-60 [q2msg] *)
Definition g_q2msg (q : v4 num) : gqmsg num := GQ (y1 q) (y2 q) (y3 q) (y0 q).
(** ros_msg.py:62-71 [msg2R] *)
Definition g_msg2R (m : gqmsg num) : m3 num := g_q2R A (g_msg2q m).
(** ros_msg.py:73-82 [R2msg] *)
Definition g_R2msg (M : m3 num) : out (gqmsg num) := let* q := g_R2q A M in Ok (g_q2msg q).
(** ros_msg.py:130-165 [msg2transform] on a Transform or Pose message; positions are copied *)
Definition g_msg2transform (m : gpose num) : gtf A := GT (g_msg2R (ori m)) (pos m).
(** ros_msg.py:167-176 [transform2msg] and 195-204 [transform2pose_msg] *)
Definition g_transform2msg (T : gtf A) : out (gpose num) := let* o := g_R2msg (gR T) in Ok (GPose (gp T) o).
End Messages.
