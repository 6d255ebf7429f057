(** Model of general_robotics_toolbox/tesseract.py: scene graphs, environment commands,
    plugin information, and the OPW and UR solver parameters.

    The Tesseract library itself is not modelled.  Its contract is taken to be:
    - a scene graph is a set of named links and named joints; [addLink] answers False
      when the link name or the joint name is taken or the parent link is missing;
    - [AngleAxisd(R)] gives the rotation matrix R back when R is a rotation.  It is the
      parameter [aa] below, and the theorems assume only that about it;
    - [insertSceneGraph(sg, joint, prefix)] adds sg with every name prefixed and then the
      joint as it stands. *)
From Coq Require Import Reals ZArith String List Bool DecimalString.
From Verif Require Import LinAlg RealAux Py ModelRot ModelTransform ModelRobot.
Import ListNotations.
Open Scope R_scope.

Inductive tkind := TRevolute | TPrismatic | TFixed.
(** [JointLimits(lower, upper, effort, velocity, acceleration)] *)
Record tlimits := TL { l_lower : R; l_upper : R; l_effort : R; l_vel : R; l_acc : R }.
(** A tesseract Joint.  Fixed joints keep the library's default axis and limits (None). *)
Record tjoint := TJ {
  tj_name : string;
  tj_kind : tkind;
  tj_axis : option vec3;
  tj_origin : transform;
  tj_parent : string;
  tj_child : string;
  tj_limits : option tlimits }.
(** A SceneGraph: link names and joints in the order of their addition. *)
Record sgraph := SG { sg_links : list string; sg_joints : list tjoint }.
Definition empty_sg : sgraph := SG [] [].

Definition mem_str (s : string) (l : list string) : bool := existsb (String.eqb s) l.

(** [sg.addLink(link)] *)
Definition add_link0 (g : sgraph) (l : string) : option sgraph :=
  if mem_str l (sg_links g) then None else Some (SG (sg_links g ++ [l]) (sg_joints g)).
(** [sg.addLink(link, joint)] where the joint's child is the link *)
Definition add_link (g : sgraph) (l : string) (j : tjoint) : option sgraph :=
  if mem_str l (sg_links g) then None
  else if mem_str (tj_name j) (map tj_name (sg_joints g)) then None
  else if negb (mem_str (tj_parent j) (sg_links g)) then None
  else Some (SG (sg_links g ++ [l]) (sg_joints g ++ [j])).
(** [assert sg.addLink(...)] *)
Definition assert_some {A} (o : option A) : out A :=
  match o with Some a => Ok a | None => Err AssertionError end.

(** [f"{i}"] for an integer i >= 0 *)
Definition str_nat (n : nat) : string := NilEmpty.string_of_uint (Nat.to_uint n).

(** [x[i]] where x is a list or None *)
Definition index_opt {A} (o : option (list A)) (i : nat) : out A :=
  match o with Some l => index l i | None => Err TypeError end.

Section Convert.
  Variable aa : mat3 -> mat3.

  (** tesseract.py:94-104 [transform_to_isometry3d].  An Isometry3d is kept as a transform
      without frame names. *)
  Definition transform_to_isometry3d (T : transform) : transform := Tf (aa (tR T)) (tp T) None None.

  (** tesseract.py:106-118 [isometry3d_to_transform] *)
  Definition isometry3d_to_transform (T : transform) : transform := Tf (tR T) (tp T) None None.

  (** tesseract.py:120-167 [get_link_and_joint] *)
  Definition get_link_and_joint (h p : vec3) (ty : jtype) (lower upper vel acc effort : R)
    (link_name joint_name parent : string) : out (string * tjoint) :=
    let* kind := match ty with
                 | Rotary => Ok TRevolute
                 | Prismatic => Ok TPrismatic
                 | _ => Err AssertionError
                 end in
    Ok (link_name,
        TJ joint_name kind (Some h) (transform_to_isometry3d (Tf I3 p None None)) parent link_name
           (Some (TL lower upper effort vel acc))).

  (** tesseract.py:169-192 [get_fixed_link_and_joint] *)
  Definition get_fixed_link_and_joint (T : transform) (link_name joint_name parent : string) : string * tjoint :=
    (link_name, TJ joint_name TFixed None (transform_to_isometry3d T) parent link_name None).

  (** tesseract.py:194-219 [get_robot_world_to_base_joint].  A Transform is always true in
      a boolean context (it has no __bool__ or __len__). *)
  Definition get_robot_world_to_base_joint (r : robot) (robot_name : string) : tjoint :=
    TJ ("world_to_" ++ robot_name) TFixed None
       (match rbase r with
        | Some T => transform_to_isometry3d T
        | None => Tf I3 vzero None None
        end)
       "world" (robot_name ++ "_base_link") None.

  (** tesseract.py:221-222 [_prefix_names] *)
  Definition prefix_names (names : list string) (robot_name : string) : list string :=
    map (fun n => robot_name ++ "_" ++ n)%string names.

  (** tesseract.py:262-273, the loop body *)
  Definition sg_step (r : robot) (joint_names link_names : list string) (st : sgraph * list string) (i : nat)
    : out (sgraph * list string) :=
    let '(sg, names) := st in
    let* parent := match i with O => Ok "base_link"%string | S k => index link_names k end in
    let* h := index (rH r) i in
    let* p := index (rP r) i in
    let* ty := index (rtype r) i in
    let* lo := index_opt (rlower r) i in
    let* up := index_opt (rupper r) i in
    let* ve := index_opt (rvel r) i in
    let* ac := index_opt (racc r) i in
    let* ln := index link_names i in
    let* jn := index joint_names i in
    let* lj := get_link_and_joint h p ty lo up ve ac 1000 ln jn parent in
    let* sg' := assert_some (add_link sg (fst lj) (snd lj)) in
    Ok (sg', names ++ [ln]).

  (** tesseract.py:224-297 [robot_to_scene_graph] with return_names=True: the graph,
      sg_link_names, joint_names and the chain link names.  A negative index -1 into the
      empty list of link names raises IndexError (robot without joints). *)
  Definition robot_to_scene_graph (r : robot) : out (sgraph * list string * list string * list string) :=
    let* sg := assert_some (add_link0 empty_sg "base_link") in
    let n := length (rtype r) in
    let joint_names := match rnames r with
                       | None => map (fun i => "joint_" ++ str_nat (i + 1))%string (seq 0 n)
                       | Some l => l
                       end in
    let link_names := map (fun i => "link_" ++ str_nat (i + 1))%string (seq 0 n) in
    let* _ := assert_ (Nat.eqb (length joint_names) n) in
    let* st := fold_out (sg_step r joint_names link_names) (seq 0 n) (sg, ["base_link"%string]) in
    let '(sg, names) := st in
    let* pn := index (rP r) n in
    let* last := match n with O => Err IndexError | S k => index link_names k end in
    let '(l, j) := get_fixed_link_and_joint (Tf I3 pn None None) "chain_tip" (last ++ "_to_chain_tip") last in
    let* sg := assert_some (add_link sg l j) in
    let names := names ++ ["chain_tip"%string] in
    let* st := match rflange r with
               | Some T =>
                   let '(l, j) := get_fixed_link_and_joint T "flange" "tip_to_flange" "chain_tip" in
                   let* sg := assert_some (add_link sg l j) in
                   Ok (sg, "flange"%string, names ++ ["flange"%string])
               | None => Ok (sg, "chain_tip"%string, names)
               end in
    let '(sg, tip, names) := st in
    let* st := match rRtool r, rptool r with
               | Some A, Some p =>
                   let '(l, j) := get_fixed_link_and_joint (Tf A p None None) "tool_tcp" "tip_to_tool" tip in
                   let* sg := assert_some (add_link sg l j) in
                   Ok (sg, names ++ ["tool_tcp"%string])
               | _, _ => Ok (sg, names)
               end in
    let '(sg, names) := st in
    Ok (sg, names, joint_names, "base_link"%string :: link_names).

  (** tesseract.py:299-310 [world_scene_graph] *)
  Definition world_scene_graph (name : string) : sgraph :=
    match add_link0 empty_sg name with Some g => g | None => empty_sg end.
End Convert.

(** [np.round(x, n)]: to the nearest multiple of 10^-n, ties to the even one *)
Definition rint (x : R) : Z :=
  let f := Int_part x in
  let d := x - IZR f in
  if Rltb d (1/2) then f else if Rltb (1/2) d then (f + 1)%Z
  else if Z.even f then f else (f + 1)%Z.
Definition np_round (n : nat) (x : R) : R := IZR (rint (x * 10 ^ n)) / 10 ^ n.

(** [np.allclose] with its default tolerances on vectors, matrices, and against 0 *)
Definition v_close (a b : vec3) : bool := v_isclose (1/100000) (1/100000000) a b.
Definition zero_close (a : R) : bool := isclose (1/100000) (1/100000000) a 0.

(** tesseract.py:599-612 [OPWInvKinParameters] *)
Record opw_params := OPW {
  o_a1 : R; o_a2 : R; o_b : R; o_c1 : R; o_c2 : R; o_c3 : R; o_c4 : R;
  o_offsets : list R; o_signs : list R }.

(** tesseract.py:645-651 [axis_sign] *)
Definition axis_sign (h e : vec3) : Z :=
  if v_close h e then 1%Z else if v_close h (vneg e) then (-1)%Z else 0%Z.
Definition axis_ok (h e : vec3) : bool := negb (Z.eqb (axis_sign h e) 0).

(** [A[:,k:] = np.matmul(R, A[:,k:])] on a list of columns *)
Definition turn_from (k : nat) (A : mat3) (l : list vec3) : list vec3 := firstn k l ++ map (mvec A) (skipn k l).
(** [A[:,k] = v] *)
Definition set_col (k : nat) (v : vec3) (l : list vec3) : list vec3 := firstn k l ++ match skipn k l with [] => [] | _ :: t => v :: t end.
(** [np.abs(a) > np.abs(b)] *)
Definition abs_gt (a b : R) : bool := Rltb (Rabs b) (Rabs a).

(** tesseract.py:666-688: the bend, as the index of the first column to turn (None when the
    robot is outstretched along z) *)
Definition opw_bend (h5 : vec3) (p2 p3 p4 : vec3) : option nat :=
  if axis_ok h5 ex then
    if abs_gt (vx p2) (vz p2) then Some 2%nat
    else if abs_gt (vx p3 + vx p4) (vz p3 + vz p4) then Some 3%nat
    else Some 2%nat
  else None.

(** tesseract.py:614-718 [robot_to_opw_inv_kin_parameters] *)
Definition robot_to_opw_inv_kin_parameters (r : robot) : out opw_params :=
  let* T := assert_some (rflange r) in
  let* _ := assert_ (m_isclose (1/100000) (1/100000000) (tR T) (rot ey (PI / 2))) in
  let* _ := assert_ (v_close (tp T) vzero) in
  let* _ := assert_ (Nat.eqb (length (rtype r)) 6) in
  let* h0 := index (rH r) 0 in let* _ := assert_ (axis_ok h0 ez) in
  let* h1 := index (rH r) 1 in let* _ := assert_ (axis_ok h1 ey) in
  let* h2 := index (rH r) 2 in let* _ := assert_ (axis_ok h2 ey) in
  let* h4 := index (rH r) 4 in let* _ := assert_ (axis_ok h4 ey) in
  let* h3 := index (rH r) 3 in let* h5 := index (rH r) 5 in
  let* _ := assert_ (axis_ok h3 h5) in
  let* _ := assert_ (axis_ok h5 ez || axis_ok h5 ex) in
  let* p2 := index (rP r) 2 in let* p3 := index (rP r) 3 in let* p4 := index (rP r) 4 in
  let A := rot ey (- (PI / 2)) in
  let '(H2, P2, off1, off2) :=
    match opw_bend h5 p2 p3 p4 with
    | None => (rH r, rP r, 0, 0)
    | Some 2%nat => (turn_from 2 A (rH r), turn_from 2 A (rP r), - (PI / 2), 0)
    | Some k => (turn_from k A (rH r), turn_from k A (rP r), 0, - (PI / 2))
    end in
  let* c := index P2 2 in
  let '(P2, off1, off2) :=
    if zero_close (vx c) then (P2, off1, off2)
    else let q := - atan2 (vx c) (vz c) in
         (set_col 2 (mvec (rot ey q) c) P2, off1 + q, off2 - q) in
  let* p0 := index P2 0 in let* p1 := index P2 1 in let* p2 := index P2 2 in let* p3 := index P2 3 in
  let* _ := assert_ (zero_close (vx p0) && zero_close (vy p0)) in
  let* _ := assert_ (forallb (fun p => zero_close (vx p) && zero_close (vy p)) (skipn 4 P2)) in
  let* _ := assert_ (zero_close (vx p2)) in
  let* p4 := index P2 4 in let* p5 := index P2 5 in let* p6 := index P2 6 in
  let* g0 := index H2 0 in let* g1 := index H2 1 in let* g2 := index H2 2 in
  let* g3 := index H2 3 in let* g4 := index H2 4 in let* g5 := index H2 5 in
  let signs := map (fun p => np_round 8 (IZR (axis_sign (fst p) (snd p))))
                   [(g0, ez); (g1, ey); (g2, ey); (g3, ez); (g4, ey); (g5, ez)] in
  Ok (OPW (np_round 6 (vx p1)) (np_round 6 (vx p3)) (np_round 6 (vy p1 + vy p2 + vy p3))
          (np_round 6 (vz p0 + vz p1)) (np_round 6 (vz p2)) (np_round 6 (vz p3 + vz p4)) (np_round 6 (vz p5 + vz p6))
          (map (np_round 8) [0; off1; off2; 0; 0; 0]) signs).

(** tesseract.py:949-958 [URInvKinParameters] *)
Record ur_params := UR { u_d1 : R; u_a2 : R; u_a3 : R; u_d4 : R; u_d5 : R; u_d6 : R }.

(** [np.allclose(H, E)] for arrays given by columns; an array with one column is broadcast *)
Definition array_close (H E : list vec3) : out bool :=
  if Nat.eqb (length H) (length E) then Ok (forallb (fun p => v_close (fst p) (snd p)) (combine H E))
  else match H with
       | [h] => Ok (forallb (fun e => v_close h e) E)
       | _ => Err ValueError
       end.
(** [P[:,a:b]] *)
Definition slice {A} (a b : nat) (l : list A) : list A := skipn a (firstn b l).
(** [np.sum] *)
Definition np_sum (l : list R) : R := fold_left Rplus l 0.

Definition ur_home : list vec3 := [ez; vneg ey; vneg ey; vneg ey; vneg ez; vneg ey].

(** tesseract.py:960-1011 [robot_to_ur_inv_kin_parameters].  Both comparisons of H are
    evaluated. *)
Definition robot_to_ur_inv_kin_parameters (r : robot) : out ur_params :=
  let* T := assert_some (rflange r) in
  let* _ := assert_ (m_isclose (1/100000) (1/1000000) (tR T) (of_cols ex ez (vneg ey))) in
  let* _ := assert_ (v_close (tp T) vzero) in
  let* B := assert_some (rbase r) in
  let* _ := assert_ (m_isclose (1/100000) (1/1000000) (tR B) (rot ez PI)) in
  let* _ := assert_ (v_close (tp B) vzero) in
  let* minus_x := array_close (rH r) ur_home in
  let* plus_x := array_close (rH r) (map vneg ur_home) in
  let* _ := assert_ (minus_x || plus_x) in
  let P2 := if plus_x then map (mvec (rot ez PI)) (rP r) else rP r in
  let* p0 := index P2 0 in
  let* _ := assert_ (zero_close (vx p0) && zero_close (vy p0)) in
  let d1 := vz p0 in
  let* p1 := index P2 1 in
  let* _ := assert_ (zero_close (vx p1)) in
  let* _ := assert_ (forallb (fun p => zero_close (vz p)) (slice 1 4 P2)) in
  let* p2 := index P2 2 in
  let* p3 := index P2 3 in
  let a2 := vx p2 in
  let a3 := vx p3 in
  let* _ := assert_ (forallb (fun p => zero_close (vx p)) (skipn 4 P2)) in
  let d4 := - np_sum (map vy (slice 1 5 P2)) in
  let d5 := - np_sum (map vz (slice 4 5 P2)) in
  let* _ := assert_ (forallb (fun p => zero_close (vz p)) (skipn 5 P2)) in
  let* _ := assert_ (forallb (fun p => zero_close (vx p)) (skipn 5 P2)) in
  let d6 := - np_sum (map vy (slice 5 6 P2)) in
  Ok (UR d1 a2 a3 d4 d5 d6).

(** Plugin information: what [yaml.safe_dump] writes and Tesseract reads back. *)
Inductive pv :=
| PStr (s : string)
| PNum (x : R)
| PInt (z : Z)
| PList (l : list pv)
| PDict (l : list (string * pv)).

(** [d[key]] *)
Fixpoint assoc (k : string) (l : list (string * pv)) : option pv :=
  match l with
  | [] => None
  | (k', v) :: l' => if String.eqb k k' then Some v else assoc k l'
  end.
Definition getitem (d : pv) (k : string) : out pv :=
  match d with
  | PDict l => match assoc k l with Some v => Ok v | None => Err KeyError end
  | _ => Err TypeError
  end.

Definition base_tip (base tip : string) : list (string * pv) := [("base_link", PStr base); ("tip_link", PStr tip)]%string.
Definition plugin (cls : string) (config : list (string * pv)) : pv :=
  PDict [("class", PStr cls); ("config", PDict config)]%string.
Definition plugins (section robot_name default : string) (l : list (string * pv)) : pv :=
  PDict [(section, PDict [(robot_name, PDict [("default"%string, PStr default); ("plugins"%string, PDict l)])])].

(** tesseract.py:417-445 [kinematics_plugin_fwdkin_kdl_plugin_info_dict] *)
Definition fwdkin_kdl (robot_name base tip : string) : pv * list string :=
  (plugins "fwd_kin_plugins" robot_name "KDLFwdKinChain"
     [("KDLFwdKinChain"%string, plugin "KDLFwdKinChainFactory" (base_tip base tip))], []).

(** tesseract.py:447-487 [kinematics_plugin_invkin_kdl_plugin_info_dict] *)
Definition invkin_kdl (robot_name base tip default_solver : string) : pv * list string :=
  (plugins "inv_kin_plugins" robot_name default_solver
     [("KDLInvKinChainLMA"%string, plugin "KDLInvKinChainLMAFactory" (base_tip base tip));
      ("KDLInvKinChainNR"%string, plugin "KDLInvKinChainNRFactory" (base_tip base tip))],
   ["tesseract_kinematics_kdl_factories"%string]).

(** [np.asarray(x, dtype=np.int8)] truncates towards 0; the values are -1, 0 or 1 *)
Definition to_int8 (x : R) : Z := if Rleb 0 x then Int_part x else (- Int_part (- x))%Z.

(** tesseract.py:720-763 [kinematics_plugin_invkin_opw_plugin_info_dict] *)
Definition invkin_opw (robot_name base tip : string) (p : opw_params) : pv * list string :=
  (plugins "inv_kin_plugins" robot_name "OPWInvKin"
     [("OPWInvKin"%string,
       plugin "OPWInvKinFactory"
         (base_tip base tip ++
          [("params", PDict [("a1", PNum (o_a1 p)); ("a2", PNum (o_a2 p)); ("b", PNum (o_b p));
                             ("c1", PNum (o_c1 p)); ("c2", PNum (o_c2 p)); ("c3", PNum (o_c3 p)); ("c4", PNum (o_c4 p));
                             ("offsets", PList (map PNum (o_offsets p)));
                             ("sign_corrections", PList (map (fun s => PInt (to_int8 s)) (o_signs p)))])]%string))],
   ["tesseract_kinematics_opw_factories"%string]).

(** tesseract.py:1013-1053 [kinematics_plugin_invkin_ur_plugin_info_dict] *)
Definition invkin_ur (robot_name base tip : string) (p : ur_params) : pv * list string :=
  (plugins "inv_kin_plugins" robot_name "URInvKin"
     [("URInvKin"%string,
       plugin "URInvKinFactory"
         (base_tip base tip ++
          [("params", PDict [("d1", PNum (u_d1 p)); ("a2", PNum (u_a2 p)); ("a3", PNum (u_a3 p));
                             ("d4", PNum (u_d4 p)); ("d5", PNum (u_d5 p)); ("d6", PNum (u_d6 p))])]%string))],
   ["tesseract_kinematics_ur_factories"%string]).

(** The argument invkin_plugin_info: a pair of a dict and a list of libraries, or a string
    (what the documentation asks for). *)
Inductive override :=
| OPair (info : pv) (libs : list string)
| OString (s : string).

(** tesseract.py:524-551: choice of the inverse kinematics entry and its libraries.
    Unpacking a string of other than two characters into two names raises ValueError; with
    two characters the list [fwdkin_libs] and a string are added, which raises TypeError. *)
Definition invkin_info (r : robot) (robot_name : string) (chain_link_names : list string) (solver : option string)
  (ov : option override) (base tip : string) : out (pv * list string) :=
  let solver := match solver with None => "KDLInvKinChainLMA"%string | Some s => s end in
  match ov with
  | Some (OPair info libs) => Ok (info, libs)
  | Some (OString s) => if Nat.eqb (String.length s) 2 then Err TypeError else Err ValueError
  | None =>
      if (String.eqb solver "KDLInvKinChainLMA" || String.eqb solver "KDLInvKinChainNR")%bool then
        Ok (invkin_kdl robot_name base tip solver)
      else if String.eqb solver "OPWInvKin" then
        let* p := robot_to_opw_inv_kin_parameters r in
        let* b := index chain_link_names 0 in
        Ok (invkin_opw robot_name b (robot_name ++ "_flange") p)
      else if String.eqb solver "URInvKin" then
        let* p := robot_to_ur_inv_kin_parameters r in
        Ok (invkin_ur robot_name base tip p)
      else Err AssertionError
  end.

(** [l[-1]] *)
Definition index_last {A} (l : list A) : out A :=
  match l with [] => Err IndexError | x :: l' => Ok (List.last l' x) end.

(** tesseract.py:489-560 [kinematics_plugin_info_dict].  The set of libraries is listed in
    the order of their first occurrence (Python leaves the order open). *)
Definition kinematics_plugin_info_dict (r : robot) (robot_name : string) (link_names chain_link_names : list string)
  (solver : option string) (ov : option override) (base tip : option string) : out pv :=
  let* base := match base with Some b => Ok b | None => index link_names 0 end in
  let* tip := match tip with Some t => Ok t | None => index_last link_names end in
  let '(fwd, fwd_libs) := fwdkin_kdl robot_name base tip in
  let* inv := invkin_info r robot_name chain_link_names solver ov base tip in
  let libs := nodup string_dec (fwd_libs ++ snd inv) in
  let* f := getitem fwd "fwd_kin_plugins" in
  let* i := getitem (fst inv) "inv_kin_plugins" in
  Ok (PDict [("kinematic_plugins",
              PDict [("search_libraries", PList (map PStr libs)); ("fwd_kin_plugins", f); ("inv_kin_plugins", i)])])%string.

(** tesseract.py:313-359 [tesseract_kinematics_information]: the chain group (name, base, tip)
    and the plugin information.  The YAML text is written by [yaml.safe_dump] and parsed by the
    library; the model passes the dict through. *)
Record kin_info := KI { k_group : string; k_base : string; k_tip : string; k_plugins : pv }.
Definition tesseract_kinematics_information (r : robot) (robot_name : string) (link_names chain_link_names : list string)
  (solver : option string) (ov : option override) (base tip : option string) : out kin_info :=
  let* base := match base with Some b => Ok b | None => index link_names 0 end in
  let* tip := match tip with Some t => Ok t | None => index_last link_names end in
  let* info := kinematics_plugin_info_dict r robot_name link_names chain_link_names solver ov (Some base) (Some tip) in
  Ok (KI robot_name base tip info).

Inductive command :=
| AddSceneGraph (g : sgraph) (j : option tjoint) (prefix : string)
| AddKinematicsInformation (k : kin_info).

(** tesseract.py:362-415 [robot_to_tesseract_env_commands] with return_names=True *)
Definition robot_to_tesseract_env_commands (aa : mat3 -> mat3) (r : robot) (robot_name : string) (include_world : bool)
  (solver : option string) (ov : option override) : out (list command * list string * list string) :=
  let c0 := if include_world then [AddSceneGraph (world_scene_graph "world") None ""] else [] in
  let* s := robot_to_scene_graph aa r in
  let '(sg, sg_links, sg_joints, sg_chain) := s in
  let base_joint := get_robot_world_to_base_joint aa r robot_name in
  let c1 := AddSceneGraph sg (Some base_joint) (robot_name ++ "_") in
  let link_names := prefix_names sg_links robot_name in
  let joint_names := prefix_names sg_joints robot_name in
  let chain_link_names := prefix_names sg_chain robot_name in
  let* tip := index_last link_names in
  let* k := tesseract_kinematics_information r robot_name link_names chain_link_names solver ov (Some "world"%string) (Some tip) in
  Ok (c0 ++ [c1; AddKinematicsInformation k],
      if include_world then "world"%string :: link_names else link_names, joint_names).

(** The library's side: applying commands to an environment (contract).  A graph without a
    joint becomes the content of an empty environment; a graph with a joint needs the joint's
    parent in the environment and its child, after removal of the prefix, in the graph. *)
Definition prefix_joint (p : string) (j : tjoint) : tjoint :=
  TJ (p ++ tj_name j) (tj_kind j) (tj_axis j) (tj_origin j) (p ++ tj_parent j) (p ++ tj_child j) (tj_limits j).
Definition prefix_graph (p : string) (g : sgraph) : sgraph :=
  SG (map (fun l => p ++ l)%string (sg_links g)) (map (prefix_joint p) (sg_joints g)).
Definition disjointb (a b : list string) : bool := forallb (fun x => negb (mem_str x b)) a.
Definition insert_graph (e g : sgraph) : option sgraph :=
  if (disjointb (sg_links g) (sg_links e) && disjointb (map tj_name (sg_joints g)) (map tj_name (sg_joints e)))%bool
  then Some (SG (sg_links e ++ sg_links g) (sg_joints e ++ sg_joints g))
  else None.
Definition attach (e g : sgraph) (j : tjoint) (p : string) : option sgraph :=
  if (mem_str (tj_parent j) (sg_links e) && mem_str (tj_child j) (map (fun l => p ++ l)%string (sg_links g)))%bool
  then match insert_graph e (prefix_graph p g) with
       | Some e' => if mem_str (tj_name j) (map tj_name (sg_joints e')) then None
                    else Some (SG (sg_links e') (sg_joints e' ++ [j]))
       | None => None
       end
  else None.
Definition apply_command (e : sgraph * list kin_info) (c : command) : option (sgraph * list kin_info) :=
  match c with
  | AddSceneGraph g None p =>
      match sg_links (fst e) with
      | [] => Some (prefix_graph p g, snd e)
      | _ => None
      end
  | AddSceneGraph g (Some j) p =>
      match attach (fst e) g j p with Some g' => Some (g', snd e) | None => None end
  | AddKinematicsInformation k => Some (fst e, snd e ++ [k])
  end.
Fixpoint apply_commands (cs : list command) (e : sgraph * list kin_info) : option (sgraph * list kin_info) :=
  match cs with
  | [] => Some e
  | c :: cs' => match apply_command e c with Some e' => apply_commands cs' e' | None => None end
  end.

(** tesseract.py:765-800 [robot_to_tesseract_env] with return_names=True *)
Definition robot_to_tesseract_env (aa : mat3 -> mat3) (r : robot) (robot_name : string) (include_world : bool)
  (solver : option string) (ov : option override) : out (sgraph * list kin_info * list string * list string) :=
  let* c := robot_to_tesseract_env_commands aa r robot_name include_world solver ov in
  let '(cs, link_names, joint_names) := c in
  let* e := assert_some (apply_commands cs (empty_sg, [])) in
  Ok (e, link_names, joint_names).

(** tesseract.py:802-842 [TesseractRobot.__init__] from a Robot structure: the environment and
    the default base and tip links *)
Record tess_robot := TR { tr_env : sgraph; tr_infos : list kin_info; tr_base : string; tr_tip : string }.
Definition TesseractRobot_init (aa : mat3 -> mat3) (r : robot) (robot_name solver : string) : out tess_robot :=
  let* e := robot_to_tesseract_env aa r robot_name true (Some solver) None in
  let '(g, ks, link_names, _) := e in
  let* b := index link_names 0 in
  let* t := index_last link_names in
  Ok (TR g ks b t).

(** tesseract.py:844-870 [TesseractRobot.fwdkin].  [frames] is the result of the library's
    calcFwdKin: the pose of each link in the root frame; a missing name raises (IndexError from
    the wrapped map). *)
Definition tess_fwdkin (tr : tess_robot) (frames : string -> option transform) (base tip : option string) : out transform :=
  let tip := match tip with Some t => t | None => tr_tip tr end in
  match frames tip with
  | None => Err IndexError
  | Some T =>
      match base with
      | None => Ok (isometry3d_to_transform T)
      | Some b => match frames b with
                  | None => Err IndexError
                  | Some B => Ok (isometry3d_to_transform (tmul (tinv B) T))
                  end
      end
  end.

(** tesseract.py:872-897 [TesseractRobot.jacobian]: the library's columns have the velocity on
    top; the returned columns have the angular velocity on top *)
Definition tess_jacobian (J_kdl : list vec6) : list vec6 := map (fun c => V6 (lo3 c) (hi3 c)) J_kdl.

(** tesseract.py:899-934 [TesseractRobot.invkin].  [calc pose base tip seed] is the library's
    calcInvKin; the results are flattened. *)
Definition tess_invkin (aa : mat3 -> mat3) (tr : tess_robot)
  (calc : transform -> string -> string -> list R -> list (list R)) (pose : transform) (seed : list R)
  (base tip : option string) : list (list R) :=
  let base := match base with Some b => b | None => tr_base tr end in
  let tip := match tip with Some t => t | None => tr_tip tr end in
  calc (transform_to_isometry3d aa pose) base tip seed.
