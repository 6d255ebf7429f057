(** Jacobians in floating-point numbers: what a product of six terms guarantees, and how far a
    computed Jacobian is from the exact one. *)
From Coq Require Import Reals List Bool.
From Verif Require Import LinAlg RealAux Py ModelRot ModelTransform ModelRobot ModelKin ModelFloat ModelFloat2 FactsNorm SpecRound.
Import ListNotations.
Open Scope R_scope.

Definition sum6 (f : nat -> R) : R := f 0%nat + f 1%nat + f 2%nat + f 3%nat + f 4%nat + f 5%nat.
(** a dot product of six terms, as [s_dot] of SpecRound *)
Definition sound6 (A : arith) (fin : num A -> Prop) (val : num A -> R) (g e : R) : Prop :=
  forall a b : nat -> num A,
  fin (ndot A (map a [0; 1; 2; 3; 4; 5]%nat) (map b [0; 1; 2; 3; 4; 5]%nat)) ->
  (forall i, (i < 6)%nat -> fin (a i) /\ fin (b i)) /\
  Rabs (val (ndot A (map a [0; 1; 2; 3; 4; 5]%nat) (map b [0; 1; 2; 3; 4; 5]%nat)) - sum6 (fun i => val (a i) * val (b i)))
    <= g * sum6 (fun i => Rabs (val (a i) * val (b i))) + e.

Section Columns.
Context {A : arith} (fin : num A -> Prop) (val : num A -> R).
Definition cfin (c : gcol A) : Prop := vfin fin (gang c) /\ vfin fin (glin c).
(** angular part within a, linear part within b *)
Definition col_near (a b : R) (cf : gcol A) (c : vec6) : Prop :=
  norm (vsub (vval val (gang cf)) (hi3 c)) <= a /\ norm (vsub (vval val (glin cf)) (lo3 c)) <= b.
End Columns.

(** How far the tool point can be from the origin of the robot's base: see [span]. *)
Definition span_tool (s : R) (o : option vec3) : R := match o with Some p => norm p + s | None => 0 end.
Definition span_jac (s : R) (r : robot) (theta : list R) : R :=
  span_links s (rP r) + span_joints s (rtype r) theta + span_tf s (rflange r) + span_tool s (rptool r).
