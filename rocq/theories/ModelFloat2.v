(** More numerical routines over any arithmetic: the Jacobian. *)
From Coq Require Import Reals ZArith List Bool.
From Verif Require Import LinAlg RealAux Py ModelRot ModelRobot ModelFloat.
Import ListNotations.

Section Jacobian.
Context (A : arith).
Notation num := (num A).
Definition g_vsub : v3 num -> v3 num -> v3 num := v3zip (nsub A).
Definition g_vzero : v3 num := W3 (nzero A) (nzero A) (nzero A).

(** a column of the Jacobian: rows 0-2 and rows 3-5 *)
Record gcol := GC { gang : v3 num; glin : v3 num }.

(** general_robotics_toolbox.py:594-602: the loop of fwdkin, also recording for every joint
    its type, [hi], [pOi] and angle. *)
Fixpoint g_jac_loop (ty : list jtype) (H P : list (v3 num)) (theta : list num) (T : gtf A)
  : out (list (jtype * v3 num * v3 num * num) * gtf A) :=
  match ty with
  | [] => Ok ([], T)
  | j :: ty' =>
      match H, P, theta with
      | h :: H', pn :: P', t :: theta' =>
          let T' := g_fk_step A j h pn t T in
          let* rest := g_jac_loop ty' H' P' theta' T' in
          Ok ((j, g_mv A (gR T') h, gp T, t) :: fst rest, snd rest)
      | _, _, _ => Err IndexError
      end
  end.

(** general_robotics_toolbox.py:613-630: the columns of J; see [ModelKin.jac_cols] *)
Fixpoint g_jac_cols (l : list (jtype * v3 num * v3 num * num)) (pOT : v3 num) : out (list gcol) :=
  match l with
  | [] => Ok []
  | (Rotary, h, p, _) :: l' =>
      let* cs := g_jac_cols l' pOT in Ok (GC h (g_mv A (g_hat A h) (g_vsub pOT p)) :: cs)
  | (Prismatic, h, _, _) :: l' => let* cs := g_jac_cols l' pOT in Ok (GC g_vzero h :: cs)
  | (Mobile2, _, _, _) :: l' => let* cs := g_jac_cols l' pOT in Ok (GC g_vzero g_vzero :: cs)
  | (Mobile3, h, _, _) :: _ :: (_, h2, p2, t2) :: l' =>
      let* cs := g_jac_cols l' pOT in
      Ok (GC g_vzero (g_mv A (g_rot A h2 t2) h) :: GC h2 (g_mv A (g_hat A h2) (g_vsub pOT p2)) :: cs)
  | (Mobile3, _, _, _) :: _ => Err IndexError
  end.

(** general_robotics_toolbox.py:632-636: the product with [[R, 0], [0, R]], row by row *)
Definition g_base_col (M : m3 num) (c : gcol) : gcol :=
  let a := gang c in
  let l := glin c in
  let z := nzero A in
  GC (v3map (fun r => ndot A [w0 r; w1 r; w2 r; z; z; z] [w0 a; w1 a; w2 a; w0 l; w1 l; w2 l]) M)
     (v3map (fun r => ndot A [z; z; z; w0 r; w1 r; w2 r] [w0 a; w1 a; w2 a; w0 l; w1 l; w2 l]) M).

(** general_robotics_toolbox.py:604-611: the position of the tool; [ptool] is robot.p_tool,
    which is read even if robot.R_tool is None *)
Definition g_tool_point (flange : option (gtf A)) (ptool : option (v3 num)) (T : gtf A) : v3 num :=
  let R_flange := match flange with Some F => gR F | None => g_I3 A end in
  let pOT1 := match flange with Some F => g_vadd A (gp T) (g_mv A (gR T) (gp F)) | None => gp T end in
  match ptool with Some pt => g_vadd A pOT1 (g_mv A (g_mm A (gR T) R_flange) pt) | None => pOT1 end.

(** general_robotics_toolbox.py:563-636 [robotjacobian] *)
Definition g_jacobian (r : grobot A) (ptool : option (v3 num)) (theta : list num) (ignore : bool) : out (list gcol) :=
  let* _ := g_check_limits A r theta ignore in
  match grP r with
  | [] => Err IndexError
  | p0 :: P =>
      let* res := g_jac_loop (grtype r) (grH r) P theta (GT (g_I3 A) p0) in
      let* J := g_jac_cols (fst res) (g_tool_point (grflange r) ptool (snd res)) in
      match grbase r with
      | None => Ok J
      | Some B => Ok (map (g_base_col (gR B)) J)
      end
  end.
End Jacobian.
Arguments GC {A}. Arguments gang {A}. Arguments glin {A}.
