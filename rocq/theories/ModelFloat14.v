(** equivalent_configurations over any arithmetic. *)
From Coq Require Import Reals ZArith List Bool.
From Verif Require Import LinAlg RealAux Py ModelRot ModelRobot ModelInvkin ModelFloat ModelFloat11.
Import ListNotations.

Section Equivalent.
Context (A : arith).
Notation num := (num A).
Context (argsort : list num -> list nat).

(** the divisor [2*np.pi] on lines 350-351 and the factor [2.0 * np.pi] on lines 362-375 *)
Definition g_full : num := nmul A (nlit A 2 1) (npi A).
(** general_robotics_toolbox_invkin.py:350-351: [np.divmod(x, 2*np.pi)], first entry; NaN, the result for an infinite x or a
    NaN, fails the test [> 0] on line 353 as 0 does *)
Definition g_quot (x : num) : Z := match nfloor A x g_full with Some n => n | None => 0%Z end.
(** [theta2 = theta.copy(); theta2[ind] = f(theta2[ind])]; [ind] is always an index of the array *)
Definition g_change (ind : nat) (f : num -> num) (theta : list num) : list num :=
  match nth_error theta ind with Some x => set_nth ind (f x) theta | None => theta end.
(** general_robotics_toolbox_invkin.py:360-367 and 368-375: the configurations found so far and theta1 itself, each moved by
    1..n turns *)
Definition g_shifts (theta1 : list num) (found : list (list num)) (ind : nat) (op : num -> num -> num) (n : Z) : list (list num) :=
  flat_map (fun j => map (g_change ind (fun x => op x (nmul A g_full (nofZ A (Z.of_nat j + 1))))) (found ++ [theta1])) (seq 0 (Z.to_nat n)).
(** general_robotics_toolbox_invkin.py:353-376, one joint *)
Definition g_equiv_step (theta1 : list num) (ty : list jtype) (up lo : list Z) (found : list (list num)) (ind : nat) : list (list num) :=
  let u := nth ind up 0%Z in
  let l := nth ind lo 0%Z in
  if (Z.ltb 0 u || Z.ltb 0 l)%bool then
    match nth_error ty ind with
    | Some Rotary => found ++ (g_shifts theta1 found ind (nadd A) u ++ g_shifts theta1 found ind (nsub A) l)
    | _ => found
    end
  else found.
(** general_robotics_toolbox_invkin.py:353-368, one joint: [int(upper_div[ind])] or [int(lower_div[ind])] raises ValueError, as
    one of them is NaN and the other lets the joint through the test on line 353 *)
Definition g_stuck (p : jtype * (num * (num * num))) : bool :=
  let '(ty, (theta, (lower, upper))) := p in
  let u := nsub A upper theta in
  let l := nsub A theta lower in
  match ty with
  | Rotary => match nfloor A u g_full, nfloor A l g_full with Some _, Some _ => false | _, _ => (Z.ltb 0 (g_quot u) || Z.ltb 0 (g_quot l))%bool end
  | _ => false
  end.
(** general_robotics_toolbox_invkin.py:348-377; see [ModelInvkin.equiv1]. The exception of line 360 or 368 ends the loop
    whichever joint raises it, so it is looked for beforehand. *)
Definition g_equiv (r : grobot A) (theta1 : list num) : out (list (list num)) :=
  match grlower r, grupper r with
  | Some lower, Some upper =>
      if (Nat.eqb (length theta1) (length upper) && Nat.eqb (length theta1) (length lower))%bool then
        if existsb g_stuck (combine (grtype r) (combine theta1 (combine lower upper))) then Err ValueError else
        let up := map (fun p => g_quot (nsub A (snd p) (fst p))) (combine theta1 upper) in
        let lo := map (fun p => g_quot (nsub A (fst p) (snd p))) (combine theta1 lower) in
        Ok (fold_left (g_equiv_step theta1 (grtype r) up lo) (seq 0 (length theta1)) [])
      else Err ValueError
  | _, _ => Err TypeError
  end.
(** general_robotics_toolbox_invkin.py:330-391 [equivalent_configurations]; see [ModelInvkin.equivalent_configurations] *)
Definition g_equivalent (r : grobot A) (thetas : list (list num)) (last : option (list num)) : out (list (list num)) :=
  let* sols := flat_map_out (g_equiv r) thetas in
  g_sort A argsort last sols.
End Equivalent.
