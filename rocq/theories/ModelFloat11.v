(** robot6_sphericalwrist_invkin over any arithmetic. *)
From Coq Require Import Reals ZArith List Bool.
From Verif Require Import LinAlg RealAux Py ModelRot ModelRobot ModelInvkin ModelFloat ModelFloat2 ModelFloat3 ModelFloat6 ModelFloat9 ModelFloat10.
Import ListNotations.

Section Robot6.
Context (A : arith).
Notation num := (num A).
(** np.arcsin, np.remainder and np.argsort *)
Context (nasin : num -> num) (nrem : num -> num -> num) (argsort : list num -> list nat).
(** an array of three entries as a list *)
Definition l3 (v : v3 num) : list num := [w0 v; w1 v; w2 v].
Definition g_vneg : v3 num -> v3 num := v3map (nneg A).

(** general_robotics_toolbox.py:499-502 [Transform.inv] *)
Definition g_tinv (a : gtf A) : gtf A := let M := v3cols (gR a) in GT M (g_vneg (g_mv A M (gp a))).
(** general_robotics_toolbox.py:880-900 [unapply_robot_aux_transforms] *)
Definition g_unapply_aux (r : grobot A) (T : gtf A) : gtf A :=
  let T1 := match grtool r with Some W => g_tmul A T (g_tinv W) | None => T end in
  let T2 := match grflange r with Some F => g_tmul A T1 (g_tinv F) | None => T1 end in
  match grbase r with Some B => g_tmul A (g_tinv B) T2 | None => T2 end.

(** general_robotics_toolbox_invkin.py:96-98: a pair of joints; both are normalised before the None test *)
Definition g_normalize_pair (z : gnormalizer A) (j : nat * nat) (t : num * num) : out (option (num * num)) :=
  let* a := g_normalize A nrem z (fst j) (fst t) in
  let* b := g_normalize A nrem z (snd j) (snd t) in
  Ok (match a, b with Some x, Some y => Some (x, y) | _, _ => None end).
(** general_robotics_toolbox_invkin.py:86-116 [__call__] for a pair of joints.
    Simplification: the sum of the squares in norm(axis=1) is taken in the order of dot. *)
Definition g_call2 (z : gnormalizer A) (j : nat * nat) (theta : list (num * num)) : out (list (num * num)) :=
  let* normed := filter_out (g_normalize_pair z j) theta in
  match gnlast z with
  | None => Ok normed
  | Some last =>
      if Nat.ltb (length normed) 2 then Ok normed
      else
        let* a := index last (fst j) in
        let* b := index last (snd j) in
        let half := ndiv A (npi A) (nlit A 2 1) in
        match filter (fun t => nlt A (nabs A (nsub A (fst t) a)) half && nlt A (nabs A (nsub A (snd t) b)) half)%bool normed with
        | [x] => Ok [x]
        | _ => map_out (index normed) (argsort (map (fun t => l_norm A [nsub A (fst t) a; nsub A (snd t) b]) normed))
        end
  end.
(** general_robotics_toolbox_invkin.py:223-227; see [ModelInvkin.sort_solutions] *)
Definition g_sort (last : option (list num)) (sols : list (list num)) : out (list (list num)) :=
  match last with
  | None => Ok sols
  | Some lj =>
      match sols with
      | [] => Err ValueError
      | s :: _ => if Nat.eqb (length s) (length lj)
                  then map_out (index sols) (argsort (map (fun s => l_norm A (l_sub A s lj)) sols))
                  else Err ValueError
      end
  end.

(** [np.all(v == 0)] *)
Definition g_zero (x : num) : bool := (nle A x (nzero A) && nle A (nzero A) x)%bool.
Definition g_vzerob (v : v3 num) : bool := (g_zero (w0 v) && g_zero (w1 v) && g_zero (w2 v))%bool.
(** P - P.dot(H)*H *)
Definition g_off_axis (p h : v3 num) : v3 num := g_vsub A p (v3map (nmul A (g_dot3 A p h)) h).
(** general_robotics_toolbox_invkin.py:150-161, as in [ModelInvkin.correct4] and [correct5], without the array that is left
    behind when the assertion fails *)
Definition g_correct (i j k : nat) (H P : list (v3 num)) : out (list (v3 num)) :=
  let* Pi := index P i in
  if g_vzerob Pi then Ok P
  else
    let* Hj := index H j in
    let* _ := assert_ (g_vzerob (g_off_axis Pi Hj)) in
    let* Pk := index P k in
    Ok (set_nth i (W3 (nzero A) (nzero A) (nzero A)) (set_nth k (g_vadd A Pk Pi) P)).
Definition g_correct_P (H P : list (v3 num)) : out (list (v3 num)) :=
  let* P := g_correct 4 3 3 H P in g_correct 5 5 6 H P.

(** general_robotics_toolbox_invkin.py:202-222, the wrist *)
Definition g_robot6_wrist (z : gnormalizer A) (H3 H4 H5 : v3 num) (R03 R06 : m3 num) (q1 q2 q3 : num) : out (list (list num)) :=
  let R36 := g_mm A (v3cols R03) R06 in
  let* Q45 := g_subproblem2 A (l3 H5) (l3 (g_mv A R36 H5)) (l3 H3) (l3 H4) in
  let* N45 := g_call2 z (3%nat, 4%nat) Q45 in
  flat_map_out (fun q45 =>
    let '(q4, q5) := q45 in
    let R35 := g_mm A (g_rot A H3 q4) (g_rot A H4 q5) in
    let R05 := g_mm A R03 R35 in
    let R56 := g_mm A (v3cols R05) R06 in
    let* q6 := g_subproblem1 A (l3 H4) (l3 (g_mv A R56 H4)) (l3 H5) in
    let* q6 := g_normalize A nrem z 5 q6 in
    match q6 with
    | None => Ok []
    | Some q6 => Ok [[q1; q2; q3; q4; q5; q6]]
    end) N45.
(** general_robotics_toolbox_invkin.py:171-201, the body of the loop over q1 *)
Definition g_robot6_arm (z : gnormalizer A) (H P : list (v3 num)) (R06 : m3 num) (p0T : v3 num) (q1 : num) : out (list (list num)) :=
  let* H0 := index H 0 in let* H1 := index H 1 in let* H2 := index H 2 in
  let* H3 := index H 3 in let* H4 := index H 4 in let* H5 := index H 5 in
  let* P0 := index P 0 in let* P1 := index P 1 in let* P2 := index P 2 in
  let* P3 := index P 3 in let* P6 := index P 6 in
  let R01 := g_rot A H0 q1 in
  let p26 := g_vsub A (g_mv A (v3cols R01) (g_vsub A p0T (g_mv A R06 P6))) (g_vadd A P0 P1) in
  let* Q3 := g_subproblem3 A (l3 P3) (l3 P2) (l3 H2) (l_norm A (l3 p26)) in
  let* N3 := g_call1 A nrem argsort z 2 Q3 in
  flat_map_out (fun q3 =>
    let R23 := g_rot A H2 q3 in
    let p2 := g_vadd A P2 (g_mv A R23 P3) in
    let* q2 := g_subproblem1 A (l3 p2) (l3 p26) (l3 H1) in
    let* q2 := g_normalize A nrem z 1 q2 in
    match q2 with
    | None => Ok []
    | Some q2 =>
        let R12 := g_rot A H1 q2 in
        let R03 := g_mm A (g_mm A R01 R12) R23 in
        g_robot6_wrist z H3 H4 H5 R03 R06 q1 q2 q3
    end) N3.
(** general_robotics_toolbox_invkin.py:163-227 once P is corrected.
    Simplification: the array reads inside the loops are taken in a fixed order. *)
Definition g_robot6_solve (r : grobot A) (P : list (v3 num)) (pose : gtf A) (last : option (list num)) : out (list (list num)) :=
  let R06 := gR pose in
  let p0T := gp pose in
  let H := grH r in
  let* P1 := index P 1 in let* P2 := index P 2 in let* P3 := index P 3 in let* P6 := index P 6 in
  let* H0 := index H 0 in
  let d1 := g_dot3 A (g_ey A) (g_vadd A (g_vadd A P1 P2) P3) in
  let v1 := g_vsub A p0T (g_mv A R06 P6) in
  let Q1 := g_subproblem4 A nasin (g_ey A) v1 (g_vneg H0) d1 in
  let z := GN (match grlower r, grupper r with Some l, Some u => Some (l, u) | _, _ => None end) last in
  let* N1 := g_call1 A nrem argsort z 0 Q1 in
  let* sols := flat_map_out (g_robot6_arm z H P R06 p0T) N1 in
  g_sort last sols.
(** general_robotics_toolbox_invkin.py:119-227 [robot6_sphericalwrist_invkin]: the result *)
Definition g_robot6_invkin (r : grobot A) (pose : gtf A) (last : option (list num)) : out (list (list num)) :=
  let pose2 := g_unapply_aux r pose in
  let* P := g_correct_P (grH r) (grP r) in
  g_robot6_solve r P pose2 last.
End Robot6.
