(** Model of fwdkin, robotjacobian and the auxiliary transforms,
    general_robotics_toolbox.py:530-636 and 858-900. *)
From Coq Require Import Reals List Bool.
From Verif Require Import LinAlg RealAux Py ModelRot ModelTransform ModelRobot.
Import ListNotations.
Open Scope R_scope.

(** The tool as a Transform, when both R_tool and p_tool are set. *)
Definition tool_transform (r : robot) : option transform :=
  match rRtool r, rptool r with Some R, Some p => Some (Tf R p None None) | _, _ => None end.

(** general_robotics_toolbox.py:858-878 [apply_robot_aux_transforms] *)
Definition apply_aux (r : robot) (T : transform) : transform :=
  let T1 := match rflange r with Some F => tmul T F | None => T end in
  let T2 := match tool_transform r with Some W => tmul T1 W | None => T1 end in
  match rbase r with Some B => tmul B T2 | None => T2 end.

(** general_robotics_toolbox.py:880-900 [unapply_robot_aux_transforms] *)
Definition unapply_aux (r : robot) (T : transform) : transform :=
  let T1 := match tool_transform r with Some W => tmul T (tinv W) | None => T end in
  let T2 := match rflange r with Some F => tmul T1 (tinv F) | None => T1 end in
  match rbase r with Some B => tmul (tinv B) T2 | None => T2 end.

(** [np.greater_equal(a, b).all()] / [np.less_equal(a, b).all()] on 1-d arrays with
    numpy broadcasting: equal lengths, or one of length 1, else ValueError. *)
Definition all2 (f : R -> R -> bool) (a b : list R) : out bool :=
  if Nat.eqb (length a) (length b) then Ok (forallb (fun p => f (fst p) (snd p)) (combine a b))
  else match a, b with
       | [x], _ => Ok (forallb (fun y => f x y) b)
       | _, [y] => Ok (forallb (fun x => f x y) a)
       | _, _ => Err ValueError
       end.

(** general_robotics_toolbox.py:543-547 and 577-580: the limit check *)
Definition check_limits (r : robot) (theta : list R) (ignore : bool) : out unit :=
  if ignore then Ok tt
  else match rlower r, rupper r with
       | Some l, Some u =>
           let* a := all2 (fun t b => Rleb b t) theta l in
           let* _ := assert_ a in
           let* b := all2 (fun t b => Rleb t b) theta u in
           assert_ b
       | _, _ => Ok tt
       end.

(** One pass of the loop 551-556: the new rotation and position. *)
Definition fk_step (ty : jtype) (h pnext : vec3) (t : R) (R : mat3) (p : vec3) : mat3 * vec3 :=
  match ty with
  | Rotary | Mobile2 => let R' := mmul R (rot h t) in (R', vadd p (mvec R' pnext))
  | Prismatic | Mobile3 => let p' := vadd p (vscale t (mvec R h)) in (R, vadd p' (mvec R pnext))
  end.

(** general_robotics_toolbox.py:549-556: [H] and [P] (from index 1) and [theta] are read in
    step with [joint_type]; a short array raises IndexError. *)
Fixpoint fk_loop (ty : list jtype) (H P : list vec3) (theta : list R) (R : mat3) (p : vec3) : out (mat3 * vec3) :=
  match ty with
  | [] => Ok (R, p)
  | j :: ty' =>
      match H, P, theta with
      | h :: H', pn :: P', t :: theta' =>
          let '(R', p') := fk_step j h pn t R p in fk_loop ty' H' P' theta' R' p'
      | _, _, _ => Err IndexError
      end
  end.

(** general_robotics_toolbox.py:530-560 [fwdkin] *)
Definition fwdkin (r : robot) (theta : list R) (ignore : bool) : out transform :=
  let* _ := check_limits r theta ignore in
  match rP r with
  | [] => Err IndexError
  | p0 :: P => let* Rp := fk_loop (rtype r) (rH r) P theta I3 p0 in
               Ok (apply_aux r (Tf (fst Rp) (snd Rp) None None))
  end.

(** general_robotics_toolbox.py:594-602: the same loop, also recording for every
    joint its type, [hi], [pOi] and angle. *)
Fixpoint jac_loop (ty : list jtype) (H P : list vec3) (theta : list Rdefinitions.R) (R : mat3) (p : vec3)
  : out (list (jtype * vec3 * vec3 * Rdefinitions.R) * (mat3 * vec3)) :=
  match ty with
  | [] => Ok ([], (R, p))
  | j :: ty' =>
      match H, P, theta with
      | h :: H', pn :: P', t :: theta' =>
          let '(R', p') := fk_step j h pn t R p in
          let* rest := jac_loop ty' H' P' theta' R' p' in
          Ok ((j, mvec R' h, p, t) :: fst rest, snd rest)
      | _, _, _ => Err IndexError
      end
  end.

(** general_robotics_toolbox.py:613-630: the columns of J.  A mobile group of
    three joints starting with type 3 gives two columns (J loses one); a type 3 joint
    without two successors reads out of range. *)
Fixpoint jac_cols (l : list (jtype * vec3 * vec3 * R)) (pOT : vec3) : out (list vec6) :=
  match l with
  | [] => Ok []
  | (Rotary, h, p, _) :: l' =>
      let* cs := jac_cols l' pOT in Ok (V6 h (mvec (hat h) (vsub pOT p)) :: cs)
  | (Prismatic, h, _, _) :: l' => let* cs := jac_cols l' pOT in Ok (V6 vzero h :: cs)
  | (Mobile2, _, _, _) :: l' => let* cs := jac_cols l' pOT in Ok (V6 vzero vzero :: cs)
  | (Mobile3, h, _, _) :: _ :: (_, h2, p2, t2) :: l' =>
      let* cs := jac_cols l' pOT in
      Ok (V6 vzero (mvec (rot h2 t2) h) :: V6 h2 (mvec (hat h2) (vsub pOT p2)) :: cs)
  | (Mobile3, _, _, _) :: _ => Err IndexError
  end.

(** general_robotics_toolbox.py:563-636 [robotjacobian]; columns of the 6xN result,
    angular part first. *)
Definition robotjacobian (r : robot) (theta : list R) (ignore : bool) : out (list vec6) :=
  let* _ := check_limits r theta ignore in
  match rP r with
  | [] => Err IndexError
  | p0 :: P =>
      let* res := jac_loop (rtype r) (rH r) P theta I3 p0 in
      let '(l, (R, p)) := res in
      (* 604-611 *)
      let R_flange := match rflange r with Some F => tR F | None => I3 end in
      let pOT1 := match rflange r with Some F => vadd p (mvec R (tp F)) | None => p end in
      let pOT := match rptool r with Some pt => vadd pOT1 (mvec (mmul R R_flange) pt) | None => pOT1 end in
      let* J := jac_cols l pOT in
      (* 632-636 *)
      match rbase r with
      | None => Ok J
      | Some B => Ok (map (fun c => V6 (mvec (tR B) (hi3 c)) (mvec (tR B) (lo3 c))) J)
      end
  end.
