(** Joint normalisation over any arithmetic. *)
From Coq Require Import Reals ZArith List Bool.
From Flocq Require Import Core.Core IEEE754.BinarySingleNaN.
From Verif Require Import LinAlg RealAux Py ModelRot ModelRobot ModelFloat ModelInvkin.
Import ListNotations.

Section Normalize.
Context (A : arith).
Notation num := (num A).
(** np.remainder *)
Context (nrem : num -> num -> num).
Local Notation "a + b" := (nadd A a b).
Local Notation "a - b" := (nsub A a b).
Local Notation "a * b" := (nmul A a b).

(** general_robotics_toolbox_invkin.py:46-53 [normalize_joints.__init__]; see [ModelInvkin.normalizer] *)
Record gnormalizer := GN { gnlimits : option (list num * list num); gnlast : option (list num) }.

(** l < x < u, lines 60, 63 and 79 *)
Definition g_inside (l u x : num) : bool := (nlt A l x && nlt A x u)%bool.
(** 2*np.pi *)
Definition g_turn : num := nlit A 2 1 * npi A.

(** general_robotics_toolbox_invkin.py:60-66: the angle itself, one turn less or one turn more.
    The test is made on [a + theta], the result is [theta + a]. *)
Definition g_start (lu : option (num * num)) (theta : num) : option num :=
  match lu with
  | None => Some theta
  | Some (l, u) =>
      if g_inside l u theta then Some theta
      else
        let a0 := g_turn * nofZ A (-1) in
        let a1 := g_turn * nofZ A 1 in
        if g_inside l u (a0 + theta) then Some (theta + a0)
        else if g_inside l u (a1 + theta) then Some (theta + a1)
        else None
  end.

(** general_robotics_toolbox_invkin.py:69-73: the number of turns towards last_joints; None if
    np.floor_divide is NaN, for which [np.abs(n_diff) > 0] is False.
    Simplification: n_diff is an integer here, a float in the code (the same below 2^53). *)
Definition g_turns_to (last theta : num) : option Z :=
  let diff := last - theta in
  match nfloor A diff g_turn with
  | Some n => Some (if nlt A (npi A) (nrem diff g_turn) then (n + 1)%Z else n)
  | None => None
  end.

(** general_robotics_toolbox_invkin.py:55-82 [normalize]; [Ok None] is the Python value None. *)
Definition g_normalize (z : gnormalizer) (joint : nat) (theta : num) : out (option num) :=
  let* lu := match gnlimits z with
             | None => Ok None
             | Some (ls, us) => let* l := index ls joint in let* u := index us joint in Ok (Some (l, u))
             end in
  match g_start lu theta with
  | None => Ok None
  | Some theta =>
      match gnlast z with
      | None => Ok (Some theta)
      | Some last =>
          let* lj := index last joint in
          match g_turns_to lj theta with
          | None | Some 0%Z => Ok (Some theta)
          | Some n =>
              match lu with
              | None => Ok (Some (theta + g_turn * nofZ A n))
              | Some (l, u) =>
                  match filter (g_inside l u) (map (fun m => theta + g_turn * nofZ A m) (countdown n)) with
                  | x :: _ => Ok (Some x)
                  | [] => Err IndexError
                  end
              end
          end
      end
  end.

(** general_robotics_toolbox_invkin.py:86-116 [__call__] for one joint; [argsort] is np.argsort *)
Definition g_call1 (argsort : list num -> list nat) (z : gnormalizer) (joint : nat) (theta : list num) : out (list num) :=
  let* normed := filter_out (g_normalize z joint) theta in
  match gnlast z with
  | None => Ok normed
  | Some last =>
      if Nat.ltb (length normed) 2 then Ok normed
      else
        let* lj := index last joint in
        let half := ndiv A (npi A) (nlit A 2 1) in
        match filter (fun t => nlt A (nabs A (t - lj)) half) normed with
        | [x] => Ok [x]
        | _ => map_out (index normed) (argsort (map (fun t => nabs A (t - lj)) normed))
        end
  end.
End Normalize.
Arguments GN {A}. Arguments gnlimits {A}. Arguments gnlast {A}.

(** np.remainder on binary64, y > 0: C's fmod (which is exact), plus y if that is negative *)
Definition b_rem (x y : b64) : b64 :=
  match x, y with
  | B754_zero _, B754_finite false _ _ _ => B754_zero false
  | B754_finite s m e _, B754_finite false m' e' _ =>
      let k := Z.min e e' in
      let r := Z.rem (cond_Zopp s (Zpos m) * 2 ^ (e - k)) (Zpos m' * 2 ^ (e' - k)) in
      let fmod := binary_normalize 53 1024 prec64 emax64 mode_NE r k false in
      if Z.ltb r 0 then b_add fmod y else fmod
  | _, _ => B754_nan
  end.
