(** Specifications for transforms and kinematics: rigid motions as maps on points. *)
From Coq Require Import Reals ZArith List String.
From Verif Require Import LinAlg RealAux SpecRot ModelTransform ModelRobot.
Import ListNotations.
Open Scope R_scope.

(** A transform acts on points by turning and then shifting them. *)
Definition act (T : transform) (x : vec3) : vec3 := vadd (mvec (tR T) x) (tp T).
Definition act_opt (T : option transform) (x : vec3) : vec3 :=
  match T with Some T => act T x | None => x end.
Definition rigid (T : transform) : Prop := is_SO3 (tR T).
Definition rigid_opt (T : option transform) : Prop :=
  match T with Some T => rigid T | None => True end.
(** Two transforms are the same motion (frame names aside). *)
Definition same_motion (A B : transform) : Prop := tR A = tR B /\ tp A = tp B.

(** numpy's documented closeness test |a - b| <= atol + rtol |b| *)
Definition np_close (rtol atol a b : R) : Prop := Rabs (a - b) <= atol + rtol * Rabs b.
(** The twelve numbers of a transform. *)
Definition entries (T : transform) : list R :=
  [m00 (tR T); m01 (tR T); m02 (tR T); m10 (tR T); m11 (tR T); m12 (tR T);
   m20 (tR T); m21 (tR T); m22 (tR T); vx (tp T); vy (tp T); vz (tp T)].

(** What one joint does to a point given in the joint's own frame. *)
Definition joint_motion (ty : jtype) (h : vec3) (t : R) (x : vec3) : vec3 :=
  match ty with
  | Rotary | Mobile2 => rotate h t x
  | Prismatic | Mobile3 => vadd (vscale t h) x
  end.

(** The chain of joints: move the point past each link offset and joint. *)
Fixpoint chain (ty : list jtype) (H P : list vec3) (theta : list R) (x : vec3) : vec3 :=
  match ty, H, P, theta with
  | j :: ty', h :: H', p :: P', t :: theta' => joint_motion j h t (vadd p (chain ty' H' P' theta' x))
  | _, _, _, _ => x
  end.

(** The tool as a motion. *)
Definition act_tool (r : robot) (x : vec3) : vec3 :=
  match rRtool r, rptool r with Some A, Some p => vadd (mvec A x) p | _, _ => x end.

(** Where the robot puts the tool point x. *)
Definition robot_point (r : robot) (theta : list R) (x : vec3) : vec3 :=
  act_opt (rbase r)
    (vadd (hd vzero (rP r)) (chain (rtype r) (rH r) (tl (rP r)) theta (act_opt (rflange r) (act_tool r x)))).

(** Well-formed robots: what the constructor guarantees about lengths, plus unit
    axes. *)
Record wf_robot (r : robot) : Prop := {
  wf_H : List.length (rH r) = List.length (rtype r);
  wf_P : List.length (rP r) = S (List.length (rtype r));
  wf_unit : Forall unit3 (rH r);
  wf_lower : forall l, rlower r = Some l -> List.length l = List.length (rtype r);
  wf_upper : forall l, rupper r = Some l -> List.length l = List.length (rtype r) }.
(** Rotation-valued tool, flange and base; the tool is a complete pair (what the
    constructor stores). *)
Record wf_aux (r : robot) : Prop := {
  wf_pair : rRtool r = None <-> rptool r = None;
  wf_tool : forall A, rRtool r = Some A -> is_SO3 A;
  wf_flange : rigid_opt (rflange r);
  wf_base : rigid_opt (rbase r) }.

(** Every joint value lies in its closed interval. *)
Definition within_limits (r : robot) (theta : list R) : Prop :=
  match rlower r, rupper r with
  | Some l, Some u => Forall2 Rle l theta /\ Forall2 Rle theta u
  | _, _ => True
  end.

(** Rotary and prismatic joints only. *)
Definition plain_type (j : jtype) : Prop := j = Rotary \/ j = Prismatic.

(** J times the joint velocities: the sum of columns weighted by them. *)
Fixpoint jac_apply (J : list vec6) (qd : list R) : vec6 :=
  match J, qd with
  | c :: J', d :: qd' =>
      let s := jac_apply J' qd' in
      V6 (vadd (vscale d (hi3 c)) (hi3 s)) (vadd (vscale d (lo3 c)) (lo3 s))
  | _, _ => V6 vzero vzero
  end.

(** Joint vectors that differ by whole turns of turning joints only. *)
Inductive same_turns : list jtype -> list R -> list R -> Prop :=
| st_nil : forall a, same_turns [] a a
| st_turn : forall j ty a b la lb, j = Rotary \/ j = Mobile2 -> ang_eq a b ->
    same_turns ty la lb -> same_turns (j :: ty) (a :: la) (b :: lb)
| st_same : forall j ty a la lb, same_turns ty la lb -> same_turns (j :: ty) (a :: la) (a :: lb).

(** Product of a non-empty list of transforms, and its outer frame names. *)
Fixpoint last_of {A} (x : A) (l : list A) : A := match l with [] => x | y :: l' => last_of y l' end.

(** Well-formed constructor arguments, in words of shapes and lengths. *)
Definition len_if {A} (o : option (list A)) (n : nat) : Prop :=
  match o with Some l => List.length l = n | None => True end.
Record valid_args (a : robot_args) : Prop := {
  va_H3 : nrows (aH a) = 3%nat;
  va_P3 : nrows (aP a) = 3%nat;
  va_H : List.length (columns (aH a)) = List.length (atype a);
  va_P : List.length (columns (aP a)) = S (List.length (atype a));
  va_types : Forall (fun z => (0 <= z <= 3)%Z) (atype a);
  va_unit : Forall (fun c => Rabs (sqrt (fold_right (fun x s => x * x + s) 0 c) - 1) <= 1/100000000 + 1/100000) (columns (aH a));
  va_lims : forall l u, alower a = Some l -> aupper a = Some u ->
            List.length l = List.length (atype a) /\ List.length u = List.length (atype a);
  va_vel : len_if (avel a) (List.length (atype a));
  va_acc : len_if (aacc a) (List.length (atype a));
  va_M : match aM a with
         | None => True
         | Some M => List.length M = S (List.length (atype a)) /\
                     Forall (fun m => List.length m = 6%nat /\ Forall (fun row => List.length row = 6%nat) m) M
         end;
  va_names : len_if (anames a) (List.length (atype a)) }.
