(** A six-axis robot, a pose and joint values stored in binary64. *)
From Coq Require Import Reals ZArith List.
From Flocq Require Import Core.Core.
From Verif Require Import LinAlg RealAux SpecRot ModelTransform ModelRobot ModelKin SpecKin ModelFloat FactsB64 SpecRound SpecArc2 SpecSub4.
Import ListNotations.
Open Scope R_scope.

Section Stored.
Context (L : libm) (bdot : list b64 -> list b64 -> b64).
Notation A := (b64_arith L bdot).
(** a rotation up to 2^-46 in each entry, a position exactly *)
Definition stored_pose (M : R) (a : gtf A) (T : transform) : Prop :=
  is_SO3 (tR T) /\ stored_matrix (bpow radix2 (-46)) (gR a) (tR T) /\ stored3 M (gp a) (tp T).
(** axes up to 2^-50 in each entry, link vectors exactly, the auxiliary transforms as above *)
Record stored_robot (M : R) (rf : grobot A) (r : robot) : Prop := {
  sr_H : Forall2 stored_axis3 (grH rf) (rH r);
  sr_P : Forall2 (stored3 M) (grP rf) (rP r);
  sr_tool : rep_opt (stored_pose M) (grtool rf) (tool_transform r);
  sr_flange : rep_opt (stored_pose M) (grflange rf) (rflange r);
  sr_base : rep_opt (stored_pose M) (grbase rf) (rbase r) }.
End Stored.

(** all the lengths that meet in the computation *)
Definition shift_of (T : option transform) : R := match T with Some T => norm (tp T) | None => 0 end.
Definition extent (r : robot) (pose : transform) : R :=
  fold_right (fun p s => norm p + s) 0 (rP r) + norm (tp pose) + shift_of (tool_transform r) + shift_of (rflange r) + shift_of (rbase r).
(** a usable joint value *)
Definition sane (x : b64) : Prop := bfin x /\ Rabs (bval x) <= 1024.
