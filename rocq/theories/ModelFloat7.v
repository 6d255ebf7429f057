(** The iterative inverse kinematics over any arithmetic. *)
From Coq Require Import Reals ZArith List Bool.
From Verif Require Import LinAlg RealAux Py ModelRot ModelRobot ModelFloat ModelFloat2 ModelFloat3.
Import ListNotations.

Section Iterative.
Context (A : arith).
Notation num := (num A).
(** np.remainder *)
Context (nrem : num -> num -> num).
(** [np.matmul(np.linalg.pinv(J0T), b)], b in two halves: any function, possibly raising *)
Context (pinv : list (gcol A) -> v3 num -> v3 num -> out (list num)).

(** |x| < tol for the three entries *)
Definition g_below (tol : num) (v : v3 num) : bool :=
  (nlt A (nabs A (w0 v)) tol && nlt A (nabs A (w1 v)) tol && nlt A (nabs A (w2 v)) tol)%bool.

(** general_robotics_toolbox_invkin.py:453-463: the orientation error [s] and the position error
    [EP] of the pose [T] *)
Definition g_turn_error (pose T : gtf A) : v3 num :=
  let ER := g_mm A (v3cols (gR pose)) (gR T) in
  let kt := g_R2rot A ER in
  v3map (nmul A (nsin A (ndiv A (snd kt) (nlit A 2 1)))) (fst kt).
Definition g_place_error (pose T : gtf A) : v3 num := g_mv A (v3cols (gR T)) (g_vsub A (gp T) (gp pose)).

(** general_robotics_toolbox_invkin.py:440-491, one iteration; see [ModelInvkin.iterative_step].
    [Tr J0T] (lines 448-451) is a product of 6 x 6 matrices, half of whose entries are zeros. *)
Definition g_iterative_step (r : grobot A) (ptool : option (v3 num)) (pose : gtf A) (Kp KR : m3 num) (tol : num) (q : list num)
  : out (bool * list num) :=
  let* cur := g_fwdkin A r q true in
  let* J := g_jacobian A r ptool q true in
  let J0T := map (g_base_col A (v3cols (gR cur))) J in
  let EP := g_place_error pose cur in
  let s := g_turn_error pose cur in
  let* delta := pinv J0T (g_mv A KR s) (g_mv A Kp EP) in
  if (g_below tol s && g_below tol EP)%bool then Ok (true, q)
  else if Nat.eqb (length delta) (length (grtype r))
       then Ok (false, map (fun p => nsub A (fst p) (snd p)) (combine q delta))
       else Err ValueError.

(** general_robotics_toolbox_invkin.py:436-491 *)
Fixpoint g_iterative_loop (r : grobot A) (ptool : option (v3 num)) (pose : gtf A) (Kp KR : m3 num) (tol : num) (max_steps : nat) (q : list num)
  : out (bool * list num) :=
  match max_steps with
  | O => Ok (false, q)
  | S n =>
      let* s := g_iterative_step r ptool pose Kp KR tol q in
      if fst s then Ok s else g_iterative_loop r ptool pose Kp KR tol n (snd s)
  end.

(** general_robotics_toolbox_invkin.py:393-496 [iterative_invkin]; see [ModelInvkin.iterative_invkin] *)
Definition g_iterative_invkin (r : grobot A) (ptool : option (v3 num)) (pose : gtf A) (q_current : list num) (max_steps : nat) (Kp KR : m3 num) (tol : num)
  : out (bool * list num) :=
  let n := length (grtype r) in
  if negb (Nat.eqb (length q_current) n) then Err ValueError
  else
    let* res := g_iterative_loop r ptool pose Kp KR tol max_steps q_current in
    if Nat.eqb n 1 then Err TypeError
    else
      let z := GN None (Some q_current) in
      let* qs := map_out (fun p => g_normalize A nrem z (fst p) (snd p)) (combine (seq 0 n) (snd res)) in
      (* without limits normalize never returns None *)
      Ok (fst res, flat_map (fun o => match o with Some x => [x] | None => [] end) qs).
End Iterative.
