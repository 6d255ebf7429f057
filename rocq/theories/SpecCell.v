(** Several robots in one environment. *)
From Coq Require Import Reals String Ascii List.
From Verif Require Import LinAlg RealAux Py ModelTransform ModelRobot ModelTess ModelTess2 ModelTess3 SpecTess.
Import ListNotations.

(** [cell aa l e]: environment e was made for the last robot of l, and the others were added one by
    one with include_world=False, as the documentation of robot_to_tesseract_env_commands says. *)
Inductive cell (aa : mat3 -> mat3) : list (string * robot) -> sgraph * list kin_info -> Prop :=
| cell_first : forall name r solver ov e links names,
    robot_to_tesseract_env aa r name true solver ov = Ok (e, links, names) -> cell aa [(name, r)] e
| cell_more : forall l e name r solver ov cs links names e', cell aa l e ->
    robot_to_tesseract_env_commands aa r name false solver ov = Ok (cs, links, names) ->
    apply_commands cs e = Some e' -> cell aa ((name, r) :: l) e'.

(** What getKinematicGroup(name) may answer: the base of a chain group of this name, and links that
    hang on the tip of the chain, at least one. *)
Definition group_answer (e : sgraph * list kin_info) (name : string) (g : env_group) : Prop :=
  exists k, In k (snd e) /\ k_group k = name /\ eg_base g = k_base k /\ eg_tips g <> [] /\
    forall t, In t (eg_tips g) -> exists js, way (fst e) (k_tip k) t js.

(** The joint names a robot brings into an environment. *)
Definition brought (name : string) (r : robot) : list string :=
  ("world_to_" ++ name)%string :: map (fun j => name ++ "_" ++ j)%string (moving_joints r ++ fixed_joints r).
(** A name without underscores. *)
Fixpoint plain_name (s : string) : Prop :=
  match s with EmptyString => True | String c s' => c <> "_"%char /\ plain_name s' end.
