(** Model of general_robotics_toolbox_invkin.py: joint normalisation, the closed-form inverse
    kinematics of spherical-wrist and UR robots, equivalent configurations and the
    iterative solver. *)
From Coq Require Import Reals ZArith List Bool.
From Verif Require Import LinAlg RealAux Py ModelRot ModelTransform ModelRobot ModelKin ModelSub.
Import ListNotations.
Open Scope R_scope.

(** general_robotics_toolbox_invkin.py:46-53 [normalize_joints.__init__]: the limits
    that are checked, and last_joints. *)
Record normalizer := Nz { nlimits : option (list R * list R); nlast : option (list R) }.
Definition normalize_joints (r : robot) (last : option (list R)) (ignore : bool) : normalizer :=
  Nz (match rlower r, rupper r with
      | Some l, Some u => if ignore then None else Some (l, u)
      | _, _ => None
      end) last.

(** l < x < u *)
Definition inside (l u x : R) : bool := (Rltb l x && Rltb x u)%bool.

(** [np.arange(n, -sign(n), -sign(n))] for n <> 0: n, n - sign(n), ..., 0 *)
Definition countdown (n : Z) : list Z :=
  map (fun i => (Z.sgn n * Z.of_nat i)%Z) (rev (seq 0 (S (Z.abs_nat n)))).

(** general_robotics_toolbox_invkin.py:68-80, the turn that brings theta nearest to last *)
Definition turns_to (last theta : R) : Z :=
  let diff := last - theta in
  let n := floor_div diff (2 * PI) in
  if Rltb PI (remainder diff (2 * PI)) then (n + 1)%Z else n.

(** general_robotics_toolbox_invkin.py:55-82 [normalize] for a finite angle;
    [Ok None] is the Python value None. *)
Definition normalize (z : normalizer) (joint : nat) (theta : R) : out (option R) :=
  (* 56-66 *)
  let* lu := match nlimits z with
             | None => Ok None
             | Some (ls, us) => let* l := index ls joint in let* u := index us joint in Ok (Some (l, u))
             end in
  let start :=
    match lu with
    | None => Some theta
    | Some (l, u) =>
        if inside l u theta then Some theta
        else if inside l u (-2 * PI + theta) then Some (theta + -2 * PI)
        else if inside l u (2 * PI + theta) then Some (theta + 2 * PI)
        else None
    end in
  match start with
  | None => Ok None
  | Some theta =>
      (* 68-80 *)
      match nlast z with
      | None => Ok (Some theta)
      | Some last =>
          let* lj := index last joint in
          let n := turns_to lj theta in
          if Z.eqb n 0 then Ok (Some theta)
          else match lu with
               | None => Ok (Some (theta + 2 * PI * IZR n))
               | Some (l, u) =>
                   let theta_v := map (fun m => theta + 2 * PI * IZR m) (countdown n) in
                   match filter (inside l u) theta_v with
                   | x :: _ => Ok (Some x)
                   | [] => Err IndexError
                   end
               end
      end
  end.

(** The same for an angle that may be NaN: every comparison on lines 60-63 is False, so
    with limits the result is None; without limits NaN passes through (on line 74
    [np.abs(nan) > 0] is False).  The index on lines 57 and 69 can still raise. *)
Definition normalize_flt (z : normalizer) (joint : nat) (theta : flt R) : out (option (flt R)) :=
  match theta with
  | Fin t => let* o := normalize z joint t in
             Ok (match o with Some x => Some (Fin x) | None => None end)
  | NaN =>
      match nlimits z with
      | Some (ls, us) => let* _ := index ls joint in let* _ := index us joint in Ok None
      | None => match nlast z with
                | None => Ok (Some NaN)
                | Some last => let* _ := index last joint in Ok (Some NaN)
                end
      end
  end.
(** A pair of joints (lines 96-98); both are normalised before the None test. *)
Definition normalize_pair (z : normalizer) (joints : nat * nat) (theta : R * R) : out (option (R * R)) :=
  let* a := normalize z (fst joints) (fst theta) in
  let* b := normalize z (snd joints) (snd theta) in
  Ok (match a, b with Some x, Some y => Some (x, y) | _, _ => None end).

(** Keep the values that are not None (lines 90-98). *)
Fixpoint filter_out {A} (f : A -> out (option A)) (l : list A) : out (list A) :=
  match l with
  | [] => Ok []
  | x :: l' => let* y := f x in let* ys := filter_out f l' in
               Ok (match y with Some v => v :: ys | None => ys end)
  end.

(** Euclidean distance of two joint vectors *)
Fixpoint dist2 (a b : list R) : R :=
  match a, b with
  | x :: a', y :: b' => (x - y) * (x - y) + dist2 a' b'
  | _, _ => 0
  end.
Definition joint_dist (a b : list R) : R := sqrt (dist2 a b).

Section Sorting.
(** [np.argsort]: any function from distances to indices (its contract is
    [argsort_spec] in SpecInvkin; the order of equal distances is left open). *)
Context (argsort : list (flt R) -> list nat).

(** general_robotics_toolbox_invkin.py:86-116 [normalize_joints.__call__], over the type of
    candidates: [norm] is normalize, [dist] the distance to last_joints and [near] the
    test of the pruning heuristic. *)
Definition candidates {A} (z : normalizer) (norm : A -> out (option A)) (dist : A -> flt R) (near : A -> bool)
  (theta : list A) : out (list A) :=
  let* normed := filter_out norm theta in
  match nlast z with
  | None => Ok normed
  | Some _ =>
      if Nat.ltb (length normed) 2 then Ok normed
      else match filter near normed with
           | [x] => Ok [x]
           | _ => map_out (index normed) (argsort (map dist normed))
           end
  end.

Definition last_of_joint (z : normalizer) (joint : nat) : R :=
  match nlast z with Some l => nth joint l 0 | None => 0 end.
(** [joint] a number, [theta] a list of floats; [np.take] on line 103 succeeds because
    normalize has already read the same entry. *)
Definition call_flt (z : normalizer) (joint : nat) (theta : list (flt R)) : out (list (flt R)) :=
  candidates z (normalize_flt z joint)
    (fun t => match t with Fin x => Fin (Rabs (x - last_of_joint z joint)) | NaN => NaN end)
    (fun t => match t with Fin x => Rltb (Rabs (x - last_of_joint z joint)) (PI / 2) | NaN => false end) theta.
Definition call1 (z : normalizer) (joint : nat) (theta : list R) : out (list R) :=
  candidates z (normalize z joint)
    (fun x => Fin (Rabs (x - last_of_joint z joint)))
    (fun x => Rltb (Rabs (x - last_of_joint z joint)) (PI / 2)) theta.
Definition call2 (z : normalizer) (j : nat * nat) (theta : list (R * R)) : out (list (R * R)) :=
  let a := last_of_joint z (fst j) in
  let b := last_of_joint z (snd j) in
  candidates z (normalize_pair z j)
    (fun t => Fin (joint_dist [fst t; snd t] [a; b]))
    (fun t => Rltb (Rabs (fst t - a)) (PI / 2) && Rltb (Rabs (snd t - b)) (PI / 2))%bool theta.

(** general_robotics_toolbox_invkin.py:223-227, 322-326 and 387-391.  An empty list minus
    last_joints has no axis 1 (ValueError, or numpy's AxisError, which is one);
    a length mismatch is a ValueError. *)
Definition sort_solutions (last : option (list R)) (sols : list (list R)) : out (list (list R)) :=
  match last with
  | None => Ok sols
  | Some lj =>
      match sols with
      | [] => Err ValueError
      | s :: _ => if Nat.eqb (length s) (length lj)
                  then map_out (index sols) (argsort (map (fun s => Fin (joint_dist s lj)) sols))
                  else Err ValueError
      end
  end.

(** [P[:,i] = v] *)
Definition set_nth {A} (i : nat) (v : A) (l : list A) : list A :=
  firstn i l ++ match skipn i l with [] => [] | _ :: t => v :: t end.

(** [np.all(v == 0)] *)
Definition vzerob (v : vec3) : bool := (Reqb (vx v) 0 && Reqb (vy v) 0 && Reqb (vz v) 0)%bool.

(** general_robotics_toolbox_invkin.py:150-161: moves P4 into P3 and P5 into P6, in place.
    The first component is the array as the code leaves it, also when it raises. *)
Definition correct4 (H P : list vec3) : list vec3 * out unit :=
  match index P 4 with
  | Err e => (P, Err e)
  | Ok P4 =>
      if vzerob P4 then (P, Ok tt)
      else match index H 3 with
           | Err e => (P, Err e)
           | Ok H3 =>
               if vzerob (vsub P4 (vscale (dot P4 H3) H3))
               then (set_nth 4 vzero (set_nth 3 (vadd (nth 3 P vzero) P4) P), Ok tt)
               else (P, Err AssertionError)
           end
  end.
Definition correct5 (H P : list vec3) : list vec3 * out unit :=
  match index P 5 with
  | Err e => (P, Err e)
  | Ok P5 =>
      if vzerob P5 then (P, Ok tt)
      else match index H 5 with
           | Err e => (P, Err e)
           | Ok H5 =>
               if vzerob (vsub P5 (vscale (dot P5 H5) H5))
               then match index P 6 with
                    | Err e => (P, Err e)
                    | Ok P6 => (set_nth 5 vzero (set_nth 6 (vadd P6 P5) P), Ok tt)
                    end
               else (P, Err AssertionError)
           end
  end.
Definition correct_P (H P : list vec3) : list vec3 * out unit :=
  match correct4 H P with
  | (P', Err e) => (P', Err e)
  | (P', Ok _) => correct5 H P'
  end.

(** general_robotics_toolbox_invkin.py:206-222, the wrist: q4 and q5 by subproblem 2, q6 by
    subproblem 1. *)
Definition robot6_wrist (z : normalizer) (H3 H4 H5 : vec3) (R03 R06 : mat3) (q1 q2 q3 : R) : out (list (list R)) :=
  let R36 := mmul (mT R03) R06 in
  let* Q45 := subproblem2 H5 (mvec R36 H5) H3 H4 in
  let* N45 := call2 z (3%nat, 4%nat) Q45 in
  flat_map_out (fun q45 =>
    let '(q4, q5) := q45 in
    let R35 := mmul (rot H3 q4) (rot H4 q5) in
    let R05 := mmul R03 R35 in
    let R56 := mmul (mT R05) R06 in
    let* q6 := subproblem1 H4 (mvec R56 H4) H5 in
    let* q6 := normalize z 5 q6 in
    match q6 with
    | None => Ok []
    | Some q6 => Ok [[q1; q2; q3; q4; q5; q6]]
    end) N45.

(** general_robotics_toolbox_invkin.py:171-222, the body of the loop over q1.  A NaN q1 makes R01 and
    p26_q1 NaN; subproblem3 then returns one angle (or fails its assertion) and
    subproblem1 on line 188 fails its assertion. *)
Definition robot6_arm (z : normalizer) (H P : list vec3) (R06 : mat3) (p0T : vec3) (q1 : flt R) : out (list (list R)) :=
  match q1 with
  | NaN => Err AssertionError
  | Fin q1 =>
      let* H0 := index H 0 in let* H1 := index H 1 in let* H2 := index H 2 in
      let* H3 := index H 3 in let* H4 := index H 4 in let* H5 := index H 5 in
      let* P0 := index P 0 in let* P1 := index P 1 in let* P2 := index P 2 in
      let* P3 := index P 3 in let* P6 := index P 6 in
      let R01 := rot H0 q1 in
      let p26 := vsub (mvec (mT R01) (vsub p0T (mvec R06 P6))) (vadd P0 P1) in
      let* Q3 := subproblem3 P3 P2 H2 (norm p26) in
      let* N3 := call1 z 2 Q3 in
      flat_map_out (fun q3 =>
        let R23 := rot H2 q3 in
        let p2 := vadd P2 (mvec R23 P3) in
        let* q2 := subproblem1 p2 p26 H1 in
        let* q2 := normalize z 1 q2 in
        match q2 with
        | None => Ok []
        | Some q2 =>
            let R12 := rot H1 q2 in
            let R03 := mmul (mmul R01 R12) R23 in
            robot6_wrist z H3 H4 H5 R03 R06 q1 q2 q3
        end) N3
  end.

(** general_robotics_toolbox_invkin.py:163-227 once P is corrected.
    Simplification: the array reads inside the loops are taken in a fixed order; they can only
    raise IndexError for robots with fewer than six joints. *)
Definition robot6_solve (r : robot) (P : list vec3) (pose : transform) (last : option (list R)) : out (list (list R)) :=
  let R06 := tR pose in
  let p0T := tp pose in
  let H := rH r in
  let* P1 := index P 1 in let* P2 := index P 2 in let* P3 := index P 3 in let* P6 := index P 6 in
  let* H0 := index H 0 in
  let d1 := dot ey (vadd (vadd P1 P2) P3) in
  let v1 := vsub p0T (mvec R06 P6) in
  let Q1 := subproblem4 ey v1 (vneg H0) d1 in
  let z := normalize_joints r last false in
  let* N1 := call_flt z 0 Q1 in
  let* sols := flat_map_out (robot6_arm z H P R06 p0T) N1 in
  sort_solutions last sols.

(** general_robotics_toolbox_invkin.py:119-227 [robot6_sphericalwrist_invkin]: the robot as the
    call leaves it, and the result. *)
Definition set_P (r : robot) (P : list vec3) : robot :=
  Rb (rH r) P (rtype r) (rlower r) (rupper r) (rvel r) (racc r) (rM r) (rRtool r) (rptool r)
     (rnames r) (rroot r) (rtip r) (rflange r) (rbase r).
Definition robot6_sphericalwrist_invkin (r : robot) (pose : transform) (last : option (list R))
  : robot * out (list (list R)) :=
  let pose2 := unapply_aux r pose in
  let (P, ok) := correct_P (rH r) (rP r) in
  (set_P r P, let* _ := ok in robot6_solve r P pose2 last).

(** [np.allclose(A, H)] for arrays given by columns (rtol 1e-5, atol 1e-8);
    arrays of different widths cannot be broadcast, except a single column. *)
Definition col_close (a h : vec3) : bool :=
  (isclose (1/100000) (1/100000000) (vx a) (vx h) && isclose (1/100000) (1/100000000) (vy a) (vy h)
   && isclose (1/100000) (1/100000000) (vz a) (vz h))%bool.
Definition cols_close (A H : list vec3) : out bool :=
  if Nat.eqb (length A) (length H) then Ok (forallb (fun p => col_close (fst p) (snd p)) (combine A H))
  else match H with
       | [h] => Ok (forallb (fun a => col_close a h) A)
       | _ => Err ValueError
       end.
Definition ur_minus : list vec3 := [ez; vneg ey; vneg ey; vneg ey; vneg ez; vneg ey].
Definition ur_plus : list vec3 := [ez; ey; ey; ey; vneg ez; ey].

(** general_robotics_toolbox_invkin.py:280-320, the body of the loop over (q24, q5) *)
Definition ur_inner (z : normalizer) (H P : list vec3) (R06 : mat3) (p04 : vec3) (R01 : mat3) (q1 : R) (q245 : R * R)
  : out (list (list R)) :=
  let '(q24, q5) := q245 in
  let* H0 := index H 0 in let* H1 := index H 1 in let* H2 := index H 2 in
  let* H3 := index H 3 in let* H4 := index H 4 in let* H5 := index H 5 in
  let* P0 := index P 0 in let* P1 := index P 1 in let* P2 := index P 2 in
  let* P3 := index P 3 in let* P4 := index P 4 in
  let R04 := mmul (rot H0 q1) (rot H3 q24) in
  let p23p := vsub (vsub (vsub p04 P0) (mvec R01 P1)) (mvec R04 P4) in
  let* Q3 := subproblem3 P3 P2 H2 (norm p23p) in
  let* N3 := call1 z 2 Q3 in
  flat_map_out (fun q3 =>
    let R23 := rot H2 q3 in
    let v2 := mvec (mT R01) p23p in
    let p2 := vadd P2 (mvec R23 P3) in
    let* q2 := subproblem1 p2 v2 H1 in
    let* q2 := normalize z 1 q2 in
    match q2 with
    | None => Ok []
    | Some q2 =>
        let* q4 := normalize z 3 (q24 - q2 - q3) in
        match q4 with
        | None => Ok []
        | Some q4 =>
            let R05 := mmul R04 (rot H4 q5) in
            let R56 := mmul (mT R05) R06 in
            let* q6 := subproblem1 H4 (mvec R56 H4) H5 in
            let* q6 := normalize z 5 q6 in
            match q6 with
            | None => Ok []
            | Some q6 => Ok [[q1; q2; q3; q4; q5; q6]]
            end
        end
    end) N3.

(** general_robotics_toolbox_invkin.py:270-320, the body of the loop over q1.  A NaN q1 makes
    v4 NaN and subproblem2 fails an assertion in subproblem1. *)
Definition ur_arm (z : normalizer) (H P : list vec3) (R06 : mat3) (p04 : vec3) (q1 : flt R) : out (list (list R)) :=
  match q1 with
  | NaN => Err AssertionError
  | Fin q1 =>
      let* H0 := index H 0 in let* H3 := index H 3 in let* H4 := index H 4 in let* H5 := index H 5 in
      let R01 := rot H0 q1 in
      let R16 := mmul (mT R01) R06 in
      let* Q := subproblem2 H5 (mvec R16 H5) H3 H4 in
      flat_map_out (ur_inner z H P R06 p04 R01 q1) Q
  end.

(** general_robotics_toolbox_invkin.py:229-326 [ur_invkin].  The [or] on lines 255-256 stops at
    the first match. *)
Definition ur_invkin (r : robot) (pose : transform) (last : option (list R)) : out (list (list R)) :=
  let pose2 := unapply_aux r pose in
  let R06 := tR pose2 in
  let p0T := tp pose2 in
  let H := rH r in
  let P := rP r in
  let* a := cols_close ur_minus H in
  let* b := if a then Ok true else cols_close ur_plus H in
  let* _ := assert_ b in
  let* P1 := index P 1 in let* P2 := index P 2 in let* P3 := index P 3 in let* P4 := index P 4 in
  let* P5 := index P 5 in let* P6 := index P 6 in
  let* H0 := index H 0 in
  let d1 := dot ey (vadd (vadd (vadd P1 P2) P3) P4) in
  let p04 := vsub p0T (mvec R06 (vadd P6 P5)) in
  let Q1 := subproblem4 ey p04 (vneg H0) d1 in
  let z := normalize_joints r last false in
  let* N1 := call_flt z 0 Q1 in
  let* sols := flat_map_out (ur_arm z H P R06 p04) N1 in
  sort_solutions last sols.

(** [theta2[ind] += x] on a copy *)
Definition add_at (i : nat) (x : R) (l : list R) : list R := set_nth i (nth i l 0 + x) l.

(** general_robotics_toolbox_invkin.py:355-376, one joint: the configurations found so far
    and theta1 itself, each moved by 1..n turns in direction [s] *)
Definition shifts (theta1 : list R) (found : list (list R)) (ind : nat) (s : R) (n : Z) : list (list R) :=
  flat_map (fun j => map (add_at ind (s * (2 * PI * INR (S j)))) (found ++ [theta1])) (seq 0 (Z.to_nat n)).
Definition equiv_step (theta1 : list R) (ty : list jtype) (up lo : list Z) (found : list (list R)) (ind : nat)
  : list (list R) :=
  let u := nth ind up 0%Z in
  let l := nth ind lo 0%Z in
  if (Z.ltb 0 u || Z.ltb 0 l)%bool then
    match nth_error ty ind with
    | Some Rotary => found ++ (shifts theta1 found ind 1 u ++ shifts theta1 found ind (-1) l)
    | _ => found
    end
  else found.
(** general_robotics_toolbox_invkin.py:348-377, the equivalents of one configuration.
    Missing limits are None and cannot be subtracted from (TypeError).
    Simplification: numpy would broadcast a configuration of length 1. *)
Definition equiv1 (r : robot) (theta1 : list R) : out (list (list R)) :=
  match rlower r, rupper r with
  | Some lower, Some upper =>
      if (Nat.eqb (length theta1) (length upper) && Nat.eqb (length theta1) (length lower))%bool then
        let up := map (fun p => floor_div (snd p - fst p) (2 * PI)) (combine theta1 upper) in
        let lo := map (fun p => floor_div (fst p - snd p) (2 * PI)) (combine theta1 lower) in
        Ok (fold_left (equiv_step theta1 (rtype r) up lo) (seq 0 (length theta1)) [])
      else Err ValueError
  | _, _ => Err TypeError
  end.
(** general_robotics_toolbox_invkin.py:330-391 [equivalent_configurations].  The test on
    lines 382-384 has no effect: its [continue] belongs to the inner loop. *)
Definition equivalent_configurations (r : robot) (thetas : list (list R)) (last : option (list R))
  : out (list (list R)) :=
  let* sols := flat_map_out (equiv1 r) thetas in
  sort_solutions last sols.
End Sorting.

(** Tr J (lines 448-451): both halves of every column turned by R_cur^T *)
Definition to_tool_frame (R_cur : mat3) (J : list vec6) : list vec6 :=
  map (fun c => V6 (mvec (mT R_cur) (hi3 c)) (mvec (mT R_cur) (lo3 c))) J.
Definition all_below (tol : R) (v : vec3) : bool :=
  (Rltb (Rabs (vx v)) tol && Rltb (Rabs (vy v)) tol && Rltb (Rabs (vz v)) tol)%bool.

Section Iterative.
(** [np.linalg.pinv(J) b]: any function, possibly raising. *)
Context (pinv : list vec6 -> vec6 -> out (list R)).
(** general_robotics_toolbox_invkin.py:440-491, one iteration: whether it converged, and the
    new joints.  A NaN axis (R2rot) makes b and delta NaN; that needs a matrix that is no
    rotation and is not followed further. *)
Definition iterative_step (r : robot) (pose : transform) (Kp KR : mat3) (tol : R) (q : list R) : out (bool * list R) :=
  let* cur := fwdkin r q true in
  let R_cur := tR cur in
  let p_cur := tp cur in
  let* J := robotjacobian r q true in
  let J0T := to_tool_frame R_cur J in
  let ER := mmul (mT (tR pose)) R_cur in
  let EP := mvec (mT R_cur) (vsub p_cur (tp pose)) in
  match R2rot ER with
  | NaN => Err OtherException
  | Fin (k, theta) =>
      let s := vscale (sin (theta / 2)) (axis_vec k) in
      let b := V6 (mvec KR s) (mvec Kp EP) in
      let* delta := pinv J0T b in
      if (all_below tol s && all_below tol EP)%bool then Ok (true, q)
      else if Nat.eqb (length delta) (length (rtype r))
           then Ok (false, map (fun p => fst p - snd p) (combine q delta))
           else Err ValueError
  end.
(** general_robotics_toolbox_invkin.py:436-491 *)
Fixpoint iterative_loop (r : robot) (pose : transform) (Kp KR : mat3) (tol : R) (max_steps : nat) (q : list R)
  : out (bool * list R) :=
  match max_steps with
  | O => Ok (false, q)
  | S n =>
      let* s := iterative_step r pose Kp KR tol q in
      if fst s then Ok s else iterative_loop r pose Kp KR tol n (snd s)
  end.
(** general_robotics_toolbox_invkin.py:393-496 [iterative_invkin].  [q_current] is reshaped to
    (num_joints, 1); [np.squeeze] of a 1x1 array has no dimension and cannot be
    iterated over on line 96. *)
Definition iterative_invkin (r : robot) (pose : transform) (q_current : list R) (max_steps : nat) (Kp KR : mat3) (tol : R)
  : out (bool * list R) :=
  let n := length (rtype r) in
  if negb (Nat.eqb (length q_current) n) then Err ValueError
  else
    let* res := iterative_loop r pose Kp KR tol max_steps q_current in
    if Nat.eqb n 1 then Err TypeError
    else
      let z := normalize_joints r (Some q_current) true in
      let* qs := map_out (fun p => normalize z (fst p) (snd p)) (combine (seq 0 n) (snd res)) in
      (* without limits normalize never returns None *)
      Ok (fst res, flat_map (fun o => match o with Some x => [x] | None => [] end) qs).
End Iterative.
