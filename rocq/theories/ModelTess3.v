(** Model of tesseract.py, continued: TesseractRobot for a given environment. *)
From Coq Require Import Reals String List.
From Verif Require Import LinAlg RealAux Py ModelTransform ModelRobot ModelTess.
Import ListNotations.

(** A KinematicGroup, as far as it is read here: [getBaseLinkName()] and
    [getAllPossibleTipLinkNames()] *)
Record env_group := EG { eg_base : string; eg_tips : list string }.

(** tesseract.py:840-843, the part of [TesseractRobot.__init__] for a given environment;
    [group] is env.getKinematicGroup, which raises for unknown names *)
Definition TesseractRobot_wrap (group : string -> out env_group) (env : sgraph * list kin_info) (robot_name : string) : out tess_robot :=
  let* kin_grp := group robot_name in
  let* tip := index (eg_tips kin_grp) 0 in
  Ok (TR (fst env) (snd env) (eg_base kin_grp) tip).

(** tesseract.py:828-843 [TesseractRobot.__init__].  A Robot and an Environment are always true in
    a boolean context. *)
Definition TesseractRobot_new (aa : mat3 -> mat3) (robot : option robot) (robot_name solver : string)
  (group : string -> out env_group) (env : option (sgraph * list kin_info)) : out tess_robot :=
  match robot, env with
  | None, None => Err AssertionError
  | Some _, Some _ => Err AssertionError
  | Some r, None => TesseractRobot_init aa r robot_name solver
  | None, Some e => TesseractRobot_wrap group e robot_name
  end.
