(** Model of robotraconteur.py:39-214: robots from Robot Raconteur YAML documents. *)
From Coq Require Import Reals ZArith String List Bool.
From Verif Require Import LinAlg RealAux Py ModelRot ModelTransform ModelRobot.
Import ListNotations.
Open Scope R_scope.

(** A parsed YAML document ([yaml.safe_load]).  Simplification: no booleans, dates or
    non-string keys; numbers are finite; a mapping lists each key once. *)
Inductive yv :=
| YNull
| YInt (z : Z)
| YFlt (x : R)
| YStr (s : string)
| YList (l : list yv)
| YMap (m : list (string * yv)).

Fixpoint find_key (k : string) (m : list (string * yv)) : option yv :=
  match m with [] => None | (k', v) :: m' => if String.eqb k k' then Some v else find_key k m' end.

(** [v[k]] with a string *)
Definition key (v : yv) (k : string) : out yv :=
  match v with
  | YMap m => match find_key k m with Some w => Ok w | None => Err KeyError end
  | _ => Err TypeError
  end.
(** [v.get(k)] *)
Definition get_opt (v : yv) (k : string) : out yv :=
  match v with
  | YMap m => match find_key k m with Some w => Ok w | None => Ok YNull end
  | _ => Err AttributeError
  end.
(** [len(v)] *)
Definition len_of (v : yv) : out nat :=
  match v with
  | YList l => Ok (List.length l)
  | YMap m => Ok (List.length m)
  | YStr s => Ok (String.length s)
  | _ => Err TypeError
  end.
(** a Python index into a sequence of length [n] *)
Definition py_index (n : nat) (i : Z) : option nat :=
  let j := if (i <? 0)%Z then (i + Z.of_nat n)%Z else i in
  if ((0 <=? j) && (j <? Z.of_nat n))%Z%bool then Some (Z.to_nat j) else None.
(** [v[i]] with an integer *)
Definition item (v : yv) (i : Z) : out yv :=
  match v with
  | YList l => match py_index (List.length l) i with
               | Some j => index l j
               | None => Err IndexError
               end
  | YStr s => match py_index (String.length s) i with
              | Some j => Ok (YStr (String.substring j 1 s))
              | None => Err IndexError
              end
  | YMap _ => Err KeyError
  | _ => Err TypeError
  end.
Definition is_null (v : yv) : bool := match v with YNull => true | _ => false end.
(** [a >= b] *)
Definition ge (a b : yv) : out bool :=
  match a, b with
  | YInt x, YInt y => Ok (y <=? x)%Z
  | YInt x, YFlt y => Ok (Rleb y (IZR x))
  | YFlt x, YInt y => Ok (Rleb (IZR y) x)
  | YFlt x, YFlt y => Ok (Rleb y x)
  | YStr x, YStr y => Ok (negb (String.ltb x y))
  | YList _, YList _ => Err OtherException (* lexicographic comparison; the bound check that follows raises *)
  | _, _ => Err TypeError
  end.

Section Load.
(** [float(s)] of a string, used by numpy when storing a string in a float array (YAML
    reads 1e-3 as a string): [None] is ValueError, [Some NaN] a non-finite number *)
Context (parse : string -> option (flt R)).

(** storing a value in a float array: null becomes NaN.  Simplification: a list raises
    (numpy accepts three lists of one number each for a position). *)
Definition to_float (v : yv) : out (flt R) :=
  match v with
  | YInt z => Ok (Fin (IZR z))
  | YFlt x => Ok (Fin x)
  | YNull => Ok NaN
  | YStr s => match parse s with Some x => Ok x | None => Err ValueError end
  | YList _ => Err ValueError
  | YMap _ => Err TypeError
  end.

Definition flt_bind {A B} (x : flt A) (f : A -> flt B) : flt B := match x with Fin a => f a | NaN => NaN end.

(** robotraconteur.py:39-45 [_check_list] *)
Definition check_list (v : yv) (expected : option nat) : out unit :=
  if is_null v then Err ValueError else
  match expected with
  | None => Ok tt
  | Some n => let* k := len_of v in if Nat.eqb k n then Ok tt else Err ValueError
  end.
(** robotraconteur.py:48-52 [_identifier_name].  A name that is not a string is stored
    unchecked by the code; it is outside this model. *)
Definition identifier_name (v : yv) : out string :=
  match v with
  | YStr s => Ok s
  | _ => let* n := key v "name" in match n with YStr s => Ok s | _ => Err OtherException end
  end.
(** robotraconteur.py:55-56 [_to_vec3]: the three keys are looked up before any number is
    converted *)
Definition to_vec3 (d : yv) : out (flt vec3) :=
  let* x := key d "x" in let* y := key d "y" in let* z := key d "z" in
  let* x := to_float x in let* y := to_float y in let* z := to_float z in
  Ok (flt_bind x (fun x => flt_bind y (fun y => flt_bind z (fun z => Fin (V3 x y z))))).
(** robotraconteur.py:59-60 [_to_qvec] *)
Definition to_qvec (d : yv) : out (flt quat) :=
  let* w := key d "w" in let* x := key d "x" in let* y := key d "y" in let* z := key d "z" in
  let* w := to_float w in let* x := to_float x in let* y := to_float y in let* z := to_float z in
  Ok (flt_bind w (fun w => flt_bind x (fun x => flt_bind y (fun y => flt_bind z (fun z => Fin (Q4 w x y z)))))).
(** robotraconteur.py:63-71 [_to_transform].  [in] on something else than a mapping leads
    to a TypeError at the latest at the following look-up. *)
Definition to_transform (d : yv) : out (flt transform) :=
  match d with
  | YMap m =>
      let* q := match find_key "orientation" m with
                | Some _ => let* o := key d "orientation" in to_qvec o
                | None => let* o := key d "rotation" in to_qvec o
                end in
      let* p := match find_key "orientation" m with
                | Some _ => let* o := key d "position" in to_vec3 o
                | None => let* o := key d "translation" in to_vec3 o
                end in
      Ok (flt_bind q (fun q => flt_bind p (fun p => Fin (Tf (q2R q) p None None))))
  | _ => Err TypeError
  end.

(** lines 95-102: the loop over [i], from [i] on *)
Fixpoint check_numbers (doc nums : yv) (i : nat) (count : nat) : out unit :=
  match count with
  | O => Ok tt
  | S count =>
      let* a := item nums (Z.of_nat i - 1) in let* b := item nums (Z.of_nat i) in
      let* g := ge a b in
      if g then Err ValueError else
      let* infos := key doc "joint_info" in
      let* n := len_of infos in
      let* b := item nums (Z.of_nat i) in
      let* g := ge b (YInt (Z.of_nat n)) in
      if g then Err ValueError else check_numbers doc nums (S i) count
  end.

(** one pass of the loop of lines 124-144: type, lower, upper, velocity, acceleration, name *)
Record joint_entry := Je { je_type : Z; je_lower : flt R; je_upper : flt R; je_vel : flt R; je_acc : flt R; je_name : string }.
Definition load_entry (doc : yv) (i : nat) : out joint_entry :=
  let* infos := key doc "joint_info" in
  let* j := item infos (Z.of_nat i) in
  let* ty := key j "joint_type" in
  let* ty := match ty with
             | YStr s => if String.eqb s "revolute" then Ok 0%Z else if String.eqb s "prismatic" then Ok 1%Z else Err ValueError
             | _ => Err ValueError
             end in
  let* lims := key j "joint_limits" in
  if is_null lims then Err ValueError else
  let* v := key lims "lower" in let* lower := to_float v in
  let* v := key lims "upper" in let* upper := to_float v in
  let* v := key lims "velocity" in let* vel := to_float v in
  let* v := key lims "acceleration" in let* acc := to_float v in
  let* id := key j "joint_identifier" in
  let* name := if is_null id then Ok EmptyString else identifier_name id in
  Ok (Je ty lower upper vel acc name).

Fixpoint all_fin {A} (l : list (flt A)) : option (list A) :=
  match l with
  | [] => Some []
  | Fin a :: l' => match all_fin l' with Some r => Some (a :: r) | None => None end
  | NaN :: _ => None
  end.
Definition opt_fin {A} (x : option (flt A)) : option (option A) :=
  match x with None => Some None | Some (Fin a) => Some (Some a) | Some NaN => None end.
Definition col3 (v : vec3) : list R := [vx v; vy v; vz v].
Definition zero_of (x : flt R) : R := match x with Fin x => x | NaN => 0 end.

(** robotraconteur.py:74-181 [load_robot_info_yaml_to_robot] on a parsed document.
    [Ok NaN] is a robot in which some number is NaN. *)
Definition load_robot_info (doc : yv) (chain_number : Z) : out (flt robot) :=
  (* 88-93 *)
  let* chains := key doc "chains" in
  let* _ := check_list chains None in
  let* nchains := len_of chains in
  if (Z.of_nat nchains <=? chain_number)%Z then Err ValueError else
  let* chain := item chains chain_number in
  (* 94-102 *)
  let* nums := key chain "joint_numbers" in
  let* n := len_of nums in
  let* _ := check_numbers doc nums 1 (n - 1) in
  (* 104-107 *)
  let* Hv := key chain "H" in let* _ := check_list Hv (Some n) in
  let* Pv := key chain "P" in let* _ := check_list Pv (Some (S n)) in
  (* 109-115 *)
  let* H := map_out (fun i => let* v := item Hv (Z.of_nat i) in to_vec3 v) (seq 0 n) in
  let* P := map_out (fun i => let* v := item Pv (Z.of_nat i) in to_vec3 v) (seq 0 (S n)) in
  (* 117-144 *)
  let* joints := map_out (load_entry doc) (seq 0 n) in
  (* 146-148 *)
  let* links := get_opt chain "link_identifiers" in
  let has_links := match chain with YMap m => match find_key "link_identifiers" m with Some _ => true | None => false end | _ => false end in
  let* root :=
    if has_links then
      let* k := len_of links in
      if Nat.eqb k 0 then Ok None else
      let* id := item links 0 in
      if is_null id then Ok None else let* s := identifier_name id in Ok (Some s)
    else Ok None in
  (* 150-152 *)
  let* fid := key chain "flange_identifier" in
  let* tip := if is_null fid then Ok None else let* s := identifier_name fid in Ok (Some s) in
  (* 154 *)
  let* fp := key chain "flange_pose" in let* flange := to_transform fp in
  (* 156-168 *)
  let* cur := get_opt chain "current_tool" in
  let* tool_tip :=
    if is_null cur then Ok (None, tip) else
    let* tcp := get_opt cur "tcp" in
    if is_null tcp then Ok (None, tip) else
    let* T := to_transform tcp in
    let* info := get_opt cur "device_info" in
    if is_null info then Ok (Some T, tip) else
    let* dev := key info "device" in let* s := identifier_name dev in
    Ok (Some T, Some s) in
  (* 170-175 *)
  let* rdi := get_opt doc "device_info" in
  let* base :=
    if is_null rdi then Ok None else
    let* op := get_opt rdi "device_origin_pose" in
    if is_null op then Ok None else
    let* pose := key op "pose" in let* T := to_transform pose in Ok (Some T) in
  (* 177-181; a NaN in H fails the unit norm check *)
  match all_fin H with
  | None => Err AssertionError
  | Some H =>
      let args P lo up ve ac tool fl ba :=
        Ra (Cols 3 (map col3 H)) (Cols 3 (map col3 P)) (map je_type joints) (Some lo) (Some up) (Some ve) (Some ac) None
           (option_map tR tool) (option_map tp tool) (Some (map je_name joints)) root (snd tool_tip) fl ba in
      match all_fin P, all_fin (map je_lower joints), all_fin (map je_upper joints), all_fin (map je_vel joints),
            all_fin (map je_acc joints), opt_fin (fst tool_tip), flange, opt_fin base with
      | Some P, Some lo, Some up, Some ve, Some ac, Some tool, Fin fl, Some ba =>
          let* r := Robot_init (args P lo up ve ac tool (Some fl) ba) in Ok (Fin r)
      | _, _, _, _, _, _, _, _ =>
          (* the checks do not look at the other numbers *)
          let z f := map (fun j => zero_of (f j)) joints in
          let* _ := Robot_init (args (map (fun _ => vzero) P) (z je_lower) (z je_upper) (z je_vel) (z je_acc) None None None) in
          Ok NaN
      end
  end.

(** robotraconteur.py:184-214 [load_robot_and_tool_info_yaml_to_robot].  Simplification: a
    NaN in the robot's [current_tool] also counts here, though it is overwritten. *)
Definition load_robot_and_tool_info (doc tool : yv) (chain_number : Z) : out (flt robot) :=
  let* r := load_robot_info doc chain_number in
  let* tcp := key tool "tcp" in
  let* T := to_transform tcp in
  let* info := key tool "device_info" in
  let* dev := key info "device" in
  let* tip := identifier_name dev in
  Ok (flt_bind r (fun r => flt_bind T (fun T =>
    Fin (Rb (rH r) (rP r) (rtype r) (rlower r) (rupper r) (rvel r) (racc r) (rM r) (Some (tR T)) (Some (tp T))
            (rnames r) (rroot r) (Some tip) (rflange r) (rbase r))))).
End Load.
