(** How far a change of the joint values can move a point of the robot. *)
From Coq Require Import Reals ZArith List.
From Verif Require Import LinAlg RealAux SpecRot ModelTransform ModelRobot.
Import ListNotations.
Open Scope R_scope.

(** A joint that turns what follows it. *)
Definition turning (j : jtype) : bool := match j with Rotary | Mobile2 => true | Prismatic | Mobile3 => false end.
(** The farthest a point at distance [x] behind the last link can be from the origin of the first joint. *)
Fixpoint arm_length (ty : list jtype) (P : list vec3) (theta : list R) (x : R) : R :=
  match ty, P, theta with
  | j :: ty', p :: P', t :: theta' => (if turning j then 0 else Rabs t) + norm p + arm_length ty' P' theta' x
  | _, _, _ => x
  end.
(** Each turning joint moves the rest of the arm along an arc of that radius, the others shift it. *)
Fixpoint sway (ty : list jtype) (P : list vec3) (theta theta' : list R) (x : R) : R :=
  match ty, P, theta, theta' with
  | j :: ty', p :: P', t :: theta, t' :: theta' =>
      Rabs (t - t') * (if turning j then norm p + arm_length ty' P' theta' x else 1) + sway ty' P' theta theta' x
  | _, _, _, _ => 0
  end.
(** The sum of the turns. *)
Fixpoint total_turn (ty : list jtype) (theta theta' : list R) : R :=
  match ty, theta, theta' with
  | j :: ty', t :: theta, t' :: theta' => (if turning j then Rabs (t - t') else 0) + total_turn ty' theta theta'
  | _, _, _ => 0
  end.
(** Joint values that agree up to [d], and up to whole turns of turning joints. *)
Inductive near_turns (d : R) : list jtype -> list R -> list R -> Prop :=
| nt_nil : near_turns d [] [] []
| nt_cons : forall j ty t t' (n : Z) theta theta', (turning j = false -> n = 0%Z) -> Rabs (t - (t' + 2 * PI * IZR n)) <= d ->
    near_turns d ty theta theta' -> near_turns d (j :: ty) (t :: theta) (t' :: theta').
