(** Model of the URDF loader, urdf.py:57-228.  The XML has already been parsed by
    urdf_parser_py, whose robot object is modelled by [urdf] below. *)
From Coq Require Import Reals ZArith String List Bool.
From Verif Require Import LinAlg RealAux Py ModelRot ModelTransform ModelRobot.
Import ListNotations.
Open Scope R_scope.

(* ---- the objects urdf_parser_py hands over (an external library) ---- *)
(** <origin xyz= rpy=>; either attribute may be missing. *)
Record upose := Upose { o_xyz : option vec3; o_rpy : option vec3 }.
(** <limit>; each attribute may be missing. *)
Record ulimit := Ulimit { l_lower : option R; l_upper : option R; l_vel : option R; l_effort : option R }.
(** The joint types of the URDF format. *)
Inductive ukind := Fixed | Revolute | Sliding | Continuous | Floating | Planar | Unknown.
Record ujoint := Ujoint {
  j_name : string; j_parent : string; j_child : string; j_kind : ukind;
  j_axis : option vec3; j_origin : option upose; j_limit : option ulimit }.
(** <inertia ixx= ixy= ixz= iyy= iyz= izz=> *)
Record utensor := Utensor { ixx : R; ixy : R; ixz : R; iyy : R; iyz : R; izz : R }.
Record uinertial := Uinertial { i_mass : option R; i_origin : option upose; i_tensor : option utensor }.
(** Links (name, inertial) and joints in document order. *)
Record urdf := Urdf { u_links : list (string * option uinertial); u_joints : list ujoint }.

(** Python dictionaries filled in document order: the last entry for a key wins. *)
Fixpoint lookup {A} (k : string) (l : list (string * A)) : option A :=
  match l with
  | [] => None
  | (k', v) :: l' =>
      match lookup k l' with Some w => Some w | None => if String.eqb k k' then Some v else None end
  end.
(** The keys in order of first insertion. *)
Fixpoint keys (seen : list string) (l : list string) : list string :=
  match l with
  | [] => []
  | k :: l' => if existsb (String.eqb k) seen then keys seen l' else k :: keys (k :: seen) l'
  end.
Definition link_map (u : urdf) : list (string * option uinertial) := u_links u.
Definition joint_map (u : urdf) : list (string * ujoint) := map (fun j => (j_name j, j)) (u_joints u).
(** child link -> (joint name, parent link) *)
Definition parent_map (u : urdf) : list (string * (string * string)) :=
  map (fun j => (j_child j, (j_name j, j_parent j))) (u_joints u).
(** the keys of child_map: links that have a child *)
Definition in_child_map (u : urdf) (l : string) : bool := existsb (fun j => String.eqb l (j_parent j)) (u_joints u).
Definition get {A} (l : list (string * A)) (k : string) : out A :=
  match lookup k l with Some v => Ok v | None => Err KeyError end.

(** A call that may also never return (walking up a cycle of links). *)
Inductive run (A : Type) : Type := Ret (o : out A) | Hang.
Arguments Ret {A} o.
Arguments Hang {A}.
Definition rbind {A B} (x : run A) (f : A -> run B) : run B :=
  match x with Ret (Ok a) => f a | Ret (Err e) => Ret (Err e) | Hang => Hang end.

(** urdf_parser_py [get_root]: the one link without a parent. *)
Definition get_root (u : urdf) : out string :=
  match filter (fun l => match lookup l (parent_map u) with None => true | Some _ => false end)
               (keys [] (map fst (link_map u))) with
  | [r] => Ok r
  | _ => Err AssertionError
  end.
(** urdf_parser_py [get_chain(root, tip, True, False, True)]: joint names from root to
    tip, found by walking up from the tip.  The walk is cut off after [fuel] steps; one
    more than the number of joints is enough to tell that it never ends
    ([climb_fuel] in FactsUrdf.v). *)
Fixpoint climb (u : urdf) (root : string) (fuel : nat) (link : string) (acc : list string) : run (list string) :=
  match fuel with
  | O => Hang
  | S fuel' =>
      if String.eqb link root then Ret (Ok acc)
      else match lookup link (parent_map u) with
           | None => Ret (Err KeyError)
           | Some (joint, parent) => climb u root fuel' parent (joint :: acc)
           end
  end.
Definition get_chain (u : urdf) (root tip : string) : run (list string) :=
  climb u root (S (S (List.length (u_joints u)))) tip [].

(* ---- urdf.py ---- *)
(** urdf.py:57-58 [_rpy_to_rot] *)
Definition rpy_to_rot (rpy : vec3) : mat3 :=
  mmul (mmul (rot (V3 0 0 1) (vz rpy)) (rot (V3 0 1 0) (vy rpy))) (rot (V3 1 0 0) (vx rpy)).

(** np.outer *)
Definition outer (a b : vec3) : mat3 :=
  M3 (vx a * vx b) (vx a * vy b) (vx a * vz b) (vy a * vx b) (vy a * vy b) (vy a * vz b)
     (vz a * vx b) (vz a * vy b) (vz a * vz b).
Definition msub (A B : mat3) : mat3 := madd A (mscale (-1) B).

(** urdf.py:186-219 [_convert_inertial]; the argument R is not used there. *)
Definition convert_inertial (i : option uinertial) (Rm : mat3) : option mat6 :=
  match i with
  | None => None
  | Some i =>
      match i_mass i with
      | None => None
      | Some m =>
          if Rleb m (1/1000000) then None
          else
            let p := match i_origin i with
                     | Some o => match o_xyz o with Some x => x | None => vzero end
                     | None => vzero end in
            let Rc := match i_origin i with
                      | Some o => match o_rpy o with Some a => rpy_to_rot a | None => I3 end
                      | None => I3 end in
            let I0 := match i_tensor i with
                      | Some t => M3 (ixx t) (ixy t) (ixz t) (ixy t) (iyy t) (iyz t) (ixz t) (iyz t) (izz t)
                      | None => mzero end in
            let I1 := mmul (mmul Rc I0) (mT Rc) in
            let I2 := madd I1 (msub (mscale (m * dot p p) I3) (mscale m (outer p p))) in
            Some (M6 I2 (mscale m (hat p)) (mscale (- m) (hat p)) (mscale m I3))
      end
  end.
Definition m6add (A B : mat6) : mat6 :=
  M6 (madd (b00 A) (b00 B)) (madd (b01 A) (b01 B)) (madd (b10 A) (b10 B)) (madd (b11 A) (b11 B)).
(** urdf.py:223-228 [_append_inertia] *)
Definition append_inertia (old new : option mat6) : option mat6 :=
  match new with
  | None => old
  | Some n => match old with None => Some n | Some o => Some (m6add o n) end
  end.

(** State of the loop 127-149.  The arrays P, H, joint_type, the limits, names and M
    are filled from the left at index i; the model keeps the entries below i and, for P
    and M, the one at i.  i ends at n, so no entry above i is ever seen. *)
Record lstate := Lst {
  s_P : list vec3; s_p : vec3; s_R : mat3; s_H : list vec3; s_type : list Z;
  s_lower : list (option R); s_upper : list (option R); s_vel : list (option R); s_effort : list (option R);
  s_names : list string; s_M : list (option mat6); s_m : option mat6 }.
Definition lstart : lstate := Lst [] vzero I3 [] [] [] [] [] [] [] [] None.

(** urdf.py:127-149, one pass of the loop *)
Definition load_joint (u : urdf) (s : lstate) (c : string) : out lstate :=
  let* j := get (joint_map u) c in
  (* 129-133 *)
  let p := match j_origin j with
           | Some o => match o_xyz o with Some x => vadd (s_p s) (mvec (s_R s) x) | None => s_p s end
           | None => s_p s end in
  let Rm := match j_origin j with
            | Some o => match o_rpy o with Some a => mmul (s_R s) (rpy_to_rot a) | None => s_R s end
            | None => s_R s end in
  (* 134-135 *)
  let* ci := get (link_map u) (j_child j) in
  let* m := match ci with
            | None => Ok (s_m s)
            | Some _ => let* pi := get (link_map u) (j_parent j) in
                        Ok (append_inertia (s_m s) (convert_inertial pi Rm))
            end in
  match j_kind j with
  | Fixed => Ok (Lst (s_P s) p Rm (s_H s) (s_type s) (s_lower s) (s_upper s) (s_vel s) (s_effort s) (s_names s) (s_M s) m)
  | Revolute | Sliding =>
      match j_axis j with
      | None => Err ValueError (* np.matmul(R, None) *)
      | Some a =>
          let lim f := match j_limit j with Some l => f l | None => None end in
          Ok (Lst (s_P s ++ [p]) vzero Rm (s_H s ++ [mvec Rm a])
                  (s_type s ++ [match j_kind j with Revolute => 0%Z | _ => 1%Z end])
                  (s_lower s ++ [lim l_lower]) (s_upper s ++ [lim l_upper]) (s_vel s ++ [lim l_vel])
                  (s_effort s ++ [lim l_effort]) (s_names s ++ [j_name j]) (s_M s ++ [m]) None)
      end
  | _ => Err AssertionError
  end.

(** [None in l] *)
Fixpoint all_some {A} (l : list (option A)) : option (list A) :=
  match l with
  | [] => Some []
  | None :: _ => None
  | Some x :: l' => match all_some l' with Some xs => Some (x :: xs) | None => None end
  end.
Definition col (v : vec3) : list R := [vx v; vy v; vz v].
(** The rows of a 6x6 matrix given by blocks. *)
Definition rows3 (A B : mat3) : list (list R) :=
  [[m00 A; m01 A; m02 A; m00 B; m01 B; m02 B];
   [m10 A; m11 A; m12 A; m10 B; m11 B; m12 B];
   [m20 A; m21 A; m22 A; m20 B; m21 B; m22 B]].
Definition rows6 (A : mat6) : list (list R) := rows3 (b00 A) (b01 A) ++ rows3 (b10 A) (b11 A).

(** urdf.py:110-184, the loop and what follows, for the chosen chain.  The result is the
    robot and its joint_effort_limit attribute, if it gets one. *)
Definition load_chain (u : urdf) (root tip : string) (chain : list string) : out (robot * option (list R)) :=
  (* 110 *)
  let* _ := assert_ (negb (Nat.eqb (List.length chain) 0)) in
  (* 112: the count of non-fixed joints looks every joint up *)
  let* _ := map_out (get (joint_map u)) chain in
  let* s := fold_out (load_joint u) chain lstart in
  (* 151: j is the last joint of the loop *)
  let* j := get (joint_map u) (last chain EmptyString) in
  let* i := get (link_map u) (j_child j) in
  let m := append_inertia (s_m s) (convert_inertial i (s_R s)) in
  (* 153-163 *)
  let lims := match all_some (s_lower s), all_some (s_upper s) with
              | Some l, Some u => (Some l, Some u) | _, _ => (None, None) end in
  let vel := all_some (s_vel s) in
  (* 165-170 *)
  let tool := if m_isclose (1/100000) (1/100000) mzero (s_R s) then (None, None) else (Some (s_R s), Some vzero) in
  (* 172-173 *)
  let M := match all_some (s_M s ++ [m]) with Some l => Some (map rows6 l) | None => None end in
  let* r := Robot_init (Ra (Cols 3 (map col (s_H s))) (Cols 3 (map col (s_P s ++ [s_p s]))) (s_type s)
                           (fst lims) (snd lims) vel None M (fst tool) (snd tool)
                           (Some (s_names s)) (Some root) (Some tip) None None) in
  (* 181-182 *)
  Ok (r, all_some (s_effort s)).

(** urdf.py:93-103: the leaves with a usable chain; a KeyError drops the leaf. *)
Definition is_kind (k : ukind) (u : urdf) (c : string) : out bool :=
  let* j := get (joint_map u) c in
  Ok (match k, j_kind j with Fixed, Fixed | Floating, Floating => true | _, _ => false end).
Fixpoint any_out (f : string -> out bool) (l : list string) : out bool :=
  match l with [] => Ok false | c :: l' => let* b := f c in if b then Ok true else any_out f l' end.
Fixpoint all_out (f : string -> out bool) (l : list string) : out bool :=
  match l with [] => Ok true | c :: l' => let* b := f c in if b then all_out f l' else Ok false end.
Definition usable (u : urdf) (chain : list string) : out bool :=
  let* fl := any_out (is_kind Floating u) chain in
  if fl then Ok false
  else let* fx := all_out (is_kind Fixed u) chain in Ok (negb fx).
Fixpoint tip_links (u : urdf) (root : string) (ls : list string) : run (list string) :=
  match ls with
  | [] => Ret (Ok [])
  | l :: ls' =>
      if in_child_map u l then tip_links u root ls'
      else match get_chain u root l with
           | Hang => Hang
           | Ret o =>
               match bind o (usable u) with
               | Ok true => rbind (tip_links u root ls') (fun t => Ret (Ok (l :: t)))
               | Ok false | Err KeyError => tip_links u root ls'
               | Err e => Ret (Err e)
               end
           end
  end.

(** urdf.py:83-184 [_robot_from_urdf_robot] *)
Definition robot_from_urdf (u : urdf) (root_link tip_link : option string) : run (robot * option (list R)) :=
  (* 85-88 *)
  rbind (Ret match root_link with
             | Some r => match lookup r (link_map u) with Some _ => Ok r | None => Err AssertionError end
             | None => get_root u
             end) (fun root =>
  (* 89-103 *)
  rbind (tip_links u root (keys [] (map fst (link_map u)))) (fun tips =>
  (* 105-107 *)
  rbind (Ret match tip_link, tips with
             | Some t, _ => Ok t
             | None, [t] => Ok t
             | None, _ => Err AssertionError
             end) (fun tip =>
  (* 109 *)
  rbind (get_chain u root tip) (fun chain => Ret (load_chain u root tip chain))))).
