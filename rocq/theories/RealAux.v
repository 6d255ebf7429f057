(** Real-valued helpers: comparisons as booleans, [arctan2], floor, numpy's
    [isclose].  Definitions only; lemmas are in [FactsReal]. *)
From Coq Require Import Reals ZArith.
Open Scope R_scope.

(** Python comparisons on floats. *)
Definition Rltb (x y : R) : bool := if Rlt_dec x y then true else false.
Definition Rleb (x y : R) : bool := if Rle_dec x y then true else false.
Definition Reqb (x y : R) : bool := if Req_EM_T x y then true else false.

(** [np.arctan2(y, x)] (C99 atan2 without signed zeros): the angle of the
    point (x, y) in (-pi, pi], and 0 at the origin. *)
Definition atan2 (y x : R) : R :=
  if Rltb 0 x then atan (y / x)
  else if Rltb x 0 then (if Rleb 0 y then atan (y / x) + PI else atan (y / x) - PI)
  else if Rltb 0 y then PI / 2
  else if Rltb y 0 then - (PI / 2)
  else 0.

(** [np.sign] *)
Definition sgn (x : R) : R := if Rltb 0 x then 1 else if Rltb x 0 then -1 else 0.

(** [np.floor_divide(x, y)] and [np.remainder(x, y)] for y > 0 *)
Definition floor_div (x y : R) : Z := Int_part (x / y).
Definition remainder (x y : R) : R := x - y * IZR (floor_div x y).

(** [np.isclose(a, b, rtol, atol)]: |a - b| <= atol + rtol * |b| *)
Definition isclose (rtol atol a b : R) : bool := Rleb (Rabs (a - b)) (atol + rtol * Rabs b).

(** [np.finfo(np.float64).eps] and its square root *)
Definition eps : R := / 2 ^ 52.
Definition sqrt_eps : R := / 2 ^ 26.

(** Equality of angles up to whole turns. *)
Definition ang_eq (a b : R) : Prop := exists n : Z, a = b + 2 * PI * IZR n.
