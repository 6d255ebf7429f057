(** What a floating-point arithmetic guarantees, and what it means that a robot stored in
    floating-point numbers represents an ideal one. *)
From Coq Require Import Reals List Bool.
From Verif Require Import LinAlg RealAux Py ModelRot ModelTransform ModelRobot ModelKin ModelFloat FactsNorm.
Import ListNotations.
Open Scope R_scope.

(** [fin x]: x is neither infinite nor NaN; [val x]: the real number x stands for.
    u: relative error of one operation, g: of a dot product of three terms (relative to the
    sum of the absolute values of the terms), w: absolute error of sin and cos, e: the absolute error
    near zero.  A finite result comes from finite operands. *)
Record sound (A : arith) (fin : num A -> Prop) (val : num A -> R) (u g w e : R) : Prop := Sound {
  s_zero : fin (nzero A) /\ val (nzero A) = 0;
  s_one : fin (none1 A) /\ val (none1 A) = 1;
  s_neg : forall x, fin (nneg A x) -> fin x /\ val (nneg A x) = - val x;
  s_add : forall x y, fin (nadd A x y) ->
    fin x /\ fin y /\ Rabs (val (nadd A x y) - (val x + val y)) <= u * Rabs (val x + val y) + e;
  s_sub : forall x y, fin (nsub A x y) ->
    fin x /\ fin y /\ Rabs (val (nsub A x y) - (val x - val y)) <= u * Rabs (val x - val y) + e;
  s_mul : forall x y, fin (nmul A x y) ->
    fin x /\ fin y /\ Rabs (val (nmul A x y) - val x * val y) <= u * Rabs (val x * val y) + e;
  s_dot : forall a b c x y z, fin (ndot A [a; b; c] [x; y; z]) ->
    (fin a /\ fin b /\ fin c /\ fin x /\ fin y /\ fin z) /\
    Rabs (val (ndot A [a; b; c] [x; y; z]) - (val a * val x + val b * val y + val c * val z))
      <= g * (Rabs (val a * val x) + Rabs (val b * val y) + Rabs (val c * val z)) + e;
  s_sin : forall x, fin (nsin A x) -> fin x /\ Rabs (val (nsin A x) - sin (val x)) <= w;
  s_cos : forall x, fin (ncos A x) -> fin x /\ Rabs (val (ncos A x) - cos (val x)) <= w;
  s_le : forall x y, fin x -> fin y -> nle A x y = Rleb (val x) (val y) }.

Section Values.
Context {A : arith} (fin : num A -> Prop) (val : num A -> R).
Definition vval (a : v3 (num A)) : vec3 := V3 (val (w0 a)) (val (w1 a)) (val (w2 a)).
Definition mval (M : v3 (v3 (num A))) : mat3 :=
  M3 (val (w0 (w0 M))) (val (w1 (w0 M))) (val (w2 (w0 M)))
     (val (w0 (w1 M))) (val (w1 (w1 M))) (val (w2 (w1 M)))
     (val (w0 (w2 M))) (val (w1 (w2 M))) (val (w2 (w2 M))).
Definition vfin (a : v3 (num A)) : Prop := fin (w0 a) /\ fin (w1 a) /\ fin (w2 a).
Definition mfin (M : v3 (v3 (num A))) : Prop := vfin (w0 M) /\ vfin (w1 M) /\ vfin (w2 M).
Definition tfin (T : gtf A) : Prop := mfin (gR T) /\ vfin (gp T).

(** a stored axis stands for a unit vector, a stored rotation for a rotation, up to d;
    lengths and limits are exact *)
Definition rep_axis (d : R) (hf : v3 (num A)) (h : vec3) : Prop := unit3 h /\ norm (vsub (vval hf) h) <= d.
Definition rep_tf (d : R) (Tf : gtf A) (T : transform) : Prop :=
  is_SO3 (tR T) /\ frob (msub (mval (gR Tf)) (tR T)) <= d /\ vval (gp Tf) = tp T.
Definition rep_opt {S T} (P : S -> T -> Prop) (a : option S) (b : option T) : Prop :=
  match a, b with Some x, Some y => P x y | None, None => True | _, _ => False end.
Definition rep_num (x : num A) (y : R) : Prop := fin x /\ val x = y.

Record represents (d : R) (rf : grobot A) (r : robot) : Prop := Rep {
  rep_type : grtype rf = rtype r;
  rep_H : Forall2 (rep_axis d) (grH rf) (rH r);
  rep_P : map vval (grP rf) = rP r;
  rep_lower : rep_opt (Forall2 rep_num) (grlower rf) (rlower r);
  rep_upper : rep_opt (Forall2 rep_num) (grupper rf) (rupper r);
  rep_tool : rep_opt (rep_tf d) (grtool rf) (tool_transform r);
  rep_flange : rep_opt (rep_tf d) (grflange rf) (rflange r);
  rep_base : rep_opt (rep_tf d) (grbase rf) (rbase r) }.
End Values.

(** How far the tool can be from the base: every link and every prismatic displacement at its full
    length, each made longer by s. *)
Definition span_tf (s : R) (o : option transform) : R := match o with Some T => norm (tp T) + s | None => 0 end.
Fixpoint span_joints (s : R) (ty : list jtype) (theta : list R) : R :=
  match ty, theta with
  | (Prismatic | Mobile3) :: ty', t :: theta' => Rabs t + s + span_joints s ty' theta'
  | _ :: ty', _ :: theta' => span_joints s ty' theta'
  | _, _ => 0
  end.
Definition span_links (s : R) (P : list vec3) : R := fold_right (fun p x => norm p + s + x) 0 P.
Definition span (s : R) (r : robot) (theta : list R) : R :=
  span_links s (rP r) + span_joints s (rtype r) theta
  + span_tf s (rflange r) + span_tf s (tool_transform r) + span_tf s (rbase r).

(** The same robot with its axes scaled to length one. *)
Definition unit_axes (r : robot) : robot :=
  Rb (map (fun h => vdiv h (norm h)) (rH r)) (rP r) (rtype r) (rlower r) (rupper r) (rvel r) (racc r) (rM r) (rRtool r) (rptool r)
     (rnames r) (rroot r) (rtip r) (rflange r) (rbase r).
