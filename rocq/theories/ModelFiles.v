(** Where the URDF loaders take their documents from: files, packages, xacro, the parameter server. *)
From Coq Require Import List String Ascii Reals.
From Verif Require Import LinAlg Py ModelRobot ModelUrdf.
Import ListNotations.
Open Scope string_scope.

(** [os.path.join] with two arguments on POSIX *)
Definition slash : ascii := "/"%char.
Fixpoint last_char (s : string) : option ascii :=
  match s with
  | EmptyString => None
  | String c EmptyString => Some c
  | String _ s' => last_char s'
  end.
Definition path_join (a b : string) : string :=
  match b with
  | String c _ =>
      if Ascii.eqb c slash then b
      else match last_char a with
           | None => b
           | Some d => if Ascii.eqb d slash then a ++ b else a ++ String slash b
           end
  | EmptyString =>
      match last_char a with
      | None => b
      | Some d => if Ascii.eqb d slash then a ++ b else a ++ String slash b
      end
  end.

(** What the loaders ask of the outside world: rospkg, the file system, xacro, the URDF parser and
    the parameter server.  Each may raise an exception. *)
Record world := World {
  get_path : string -> out string;      (* rospkg.RosPack().get_path(package) *)
  read_file : string -> out string;     (* open(fname, 'r').read() *)
  process_xacro : string -> out string; (* xacro.process_file(fname).toprettyxml() *)
  parse_urdf : string -> out urdf;      (* URDF.from_xml_string(text) *)
  parameter : string -> out urdf        (* URDF.from_parameter_server(key) *)
}.

Section Files.
Context (w : world).
(** urdf.py:39-45 [_resolve_file] *)
Definition resolve_file (fname : string) (package : option string) : out string :=
  match package with
  | Some p => let* path := get_path w p in Ok (path_join path fname)
  | None => Ok fname
  end.
(** urdf.py:47-50 [_load_xacro_to_string] *)
Definition load_xacro_to_string (fname : string) (package : option string) : out string :=
  let* fname2 := resolve_file fname package in process_xacro w fname2.
(** urdf.py:52-55 [_load_xml_to_string] *)
Definition load_xml_to_string (fname : string) (package : option string) : out string :=
  let* fname2 := resolve_file fname package in read_file w fname2.
(** urdf.py:61-81 [robot_from_xml_string] *)
Definition robot_from_xml_string (text : string) (root_link tip_link : option string) : run (robot * option (list R)) :=
  rbind (Ret (parse_urdf w text)) (fun u => robot_from_urdf u root_link tip_link).
(** urdf.py:232-256 [robot_from_xml_file] *)
Definition robot_from_xml_file (fname : string) (package root_link tip_link : option string) : run (robot * option (list R)) :=
  rbind (Ret (load_xml_to_string fname package)) (fun text => robot_from_xml_string text root_link tip_link).
(** urdf.py:258-282 [robot_from_xacro_file] *)
Definition robot_from_xacro_file (fname : string) (package root_link tip_link : option string) : run (robot * option (list R)) :=
  rbind (Ret (load_xacro_to_string fname package)) (fun text => robot_from_xml_string text root_link tip_link).
(** urdf.py:284-304 [robot_from_parameter_server]; key defaults to "robot_description" *)
Definition robot_from_parameter_server (key : option string) (root_link tip_link : option string) : run (robot * option (list R)) :=
  rbind (Ret (parameter w (match key with Some k => k | None => "robot_description" end))) (fun u => robot_from_urdf u root_link tip_link).
End Files.
