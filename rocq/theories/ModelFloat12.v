(** ur_invkin over any arithmetic. *)
From Coq Require Import Reals ZArith List Bool.
From Verif Require Import LinAlg RealAux Py ModelRot ModelRobot ModelInvkin ModelFloat ModelFloat2 ModelFloat3 ModelFloat6 ModelFloat9 ModelFloat10 ModelFloat11.
Import ListNotations.

Section Ur.
Context (A : arith).
Notation num := (num A).
(** np.arcsin, np.remainder and np.argsort *)
Context (nasin : num -> num) (nrem : num -> num -> num) (argsort : list num -> list nat).

(** [np.isclose(a, b)] for a finite a (rtol 1e-5, atol 1e-8); b - b is 0 unless b is infinite or NaN *)
Definition g_isclose (a b : num) : bool :=
  (nle A (nabs A (nsub A a b)) (nadd A (nlit A 1 100000000) (nmul A (nlit A 1 100000) (nabs A b))) && g_zero A (nsub A b b))%bool.
Definition g_col_close (a h : v3 num) : bool := (g_isclose (w0 a) (w0 h) && g_isclose (w1 a) (w1 h) && g_isclose (w2 a) (w2 h))%bool.
(** [np.allclose] for arrays given by columns, see [ModelInvkin.cols_close] *)
Definition g_cols_close (E H : list (v3 num)) : out bool :=
  if Nat.eqb (length E) (length H) then Ok (forallb (fun p => g_col_close (fst p) (snd p)) (combine E H))
  else match H with
       | [h] => Ok (forallb (fun e => g_col_close e h) E)
       | _ => Err ValueError
       end.
Definition g_ur_minus : list (v3 num) :=
  [g_ez A; g_vneg A (g_ey A); g_vneg A (g_ey A); g_vneg A (g_ey A); g_vneg A (g_ez A); g_vneg A (g_ey A)].
Definition g_ur_plus : list (v3 num) := [g_ez A; g_ey A; g_ey A; g_ey A; g_vneg A (g_ez A); g_ey A].

(** general_robotics_toolbox_invkin.py:280-320, the body of the loop over (q24, q5) *)
Definition g_ur_inner (z : gnormalizer A) (H P : list (v3 num)) (R06 : m3 num) (p04 : v3 num) (R01 : m3 num) (q1 : num) (q245 : num * num)
  : out (list (list num)) :=
  let '(q24, q5) := q245 in
  let* H0 := index H 0 in let* H1 := index H 1 in let* H2 := index H 2 in
  let* H3 := index H 3 in let* H4 := index H 4 in let* H5 := index H 5 in
  let* P0 := index P 0 in let* P1 := index P 1 in let* P2 := index P 2 in
  let* P3 := index P 3 in let* P4 := index P 4 in
  let R04 := g_mm A (g_rot A H0 q1) (g_rot A H3 q24) in
  let p23p := g_vsub A (g_vsub A (g_vsub A p04 P0) (g_mv A R01 P1)) (g_mv A R04 P4) in
  let* Q3 := g_subproblem3 A (l3 A P3) (l3 A P2) (l3 A H2) (l_norm A (l3 A p23p)) in
  let* N3 := g_call1 A nrem argsort z 2 Q3 in
  flat_map_out (fun q3 =>
    let R23 := g_rot A H2 q3 in
    let v2 := g_mv A (v3cols R01) p23p in
    let p2 := g_vadd A P2 (g_mv A R23 P3) in
    let* q2 := g_subproblem1 A (l3 A p2) (l3 A v2) (l3 A H1) in
    let* q2 := g_normalize A nrem z 1 q2 in
    match q2 with
    | None => Ok []
    | Some q2 =>
        let* q4 := g_normalize A nrem z 3 (nsub A (nsub A q24 q2) q3) in
        match q4 with
        | None => Ok []
        | Some q4 =>
            let R05 := g_mm A R04 (g_rot A H4 q5) in
            let R56 := g_mm A (v3cols R05) R06 in
            let* q6 := g_subproblem1 A (l3 A H4) (l3 A (g_mv A R56 H4)) (l3 A H5) in
            let* q6 := g_normalize A nrem z 5 q6 in
            match q6 with
            | None => Ok []
            | Some q6 => Ok [[q1; q2; q3; q4; q5; q6]]
            end
        end
    end) N3.

(** general_robotics_toolbox_invkin.py:270-320, the body of the loop over q1 *)
Definition g_ur_arm (z : gnormalizer A) (H P : list (v3 num)) (R06 : m3 num) (p04 : v3 num) (q1 : num) : out (list (list num)) :=
  let* H0 := index H 0 in let* H3 := index H 3 in let* H4 := index H 4 in let* H5 := index H 5 in
  let R01 := g_rot A H0 q1 in
  let R16 := g_mm A (v3cols R01) R06 in
  let* Q := g_subproblem2 A (l3 A H5) (l3 A (g_mv A R16 H5)) (l3 A H3) (l3 A H4) in
  flat_map_out (g_ur_inner z H P R06 p04 R01 q1) Q.

(** general_robotics_toolbox_invkin.py:229-326 [ur_invkin].
    Simplification: the array reads are taken in a fixed order. *)
Definition g_ur_invkin (r : grobot A) (pose : gtf A) (last : option (list num)) : out (list (list num)) :=
  let pose2 := g_unapply_aux A r pose in
  let R06 := gR pose2 in
  let p0T := gp pose2 in
  let H := grH r in
  let P := grP r in
  let* a := g_cols_close g_ur_minus H in
  let* b := if a then Ok true else g_cols_close g_ur_plus H in
  let* _ := assert_ b in
  let* P1 := index P 1 in let* P2 := index P 2 in let* P3 := index P 3 in let* P4 := index P 4 in
  let* P5 := index P 5 in let* P6 := index P 6 in
  let* H0 := index H 0 in
  let d1 := g_dot3 A (g_ey A) (g_vadd A (g_vadd A (g_vadd A P1 P2) P3) P4) in
  let p04 := g_vsub A p0T (g_mv A R06 (g_vadd A P6 P5)) in
  let Q1 := g_subproblem4 A nasin (g_ey A) p04 (g_vneg A H0) d1 in
  let z := GN (match grlower r, grupper r with Some l, Some u => Some (l, u) | _, _ => None end) last in
  let* N1 := g_call1 A nrem argsort z 0 Q1 in
  let* sols := flat_map_out (g_ur_arm z H P R06 p04) N1 in
  g_sort A argsort last sols.
End Ur.
