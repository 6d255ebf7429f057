(** Specifications for the way from a file to Tesseract. *)
From Coq Require Import Reals String List.
From Verif Require Import ModelRobot.
(** [robot.joint_acc_limit = a], which the user of a loaded robot may do. *)
Definition with_acc (r : robot) (a : list R) : robot :=
  Rb (rH r) (rP r) (rtype r) (rlower r) (rupper r) (rvel r) (Some a) (rM r) (rRtool r) (rptool r)
     (rnames r) (rroot r) (rtip r) (rflange r) (rbase r).
