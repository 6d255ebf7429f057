(** Model of tesseract.py, continued: redundant solutions.

    The library's contract: a kinematic group made from the chain (base, tip) has the moving
    joints on the way from base to tip, in this order; its limits are theirs, and the joints
    that can make further turns are the revolute ones. *)
From Coq Require Import Reals String List Bool.
From Verif Require Import LinAlg RealAux Py ModelTransform ModelRobot ModelTess.
Import ListNotations.
Open Scope R_scope.

(** The joints on the way from a link to another. *)
Inductive way (g : sgraph) (base : string) : string -> list tjoint -> Prop :=
| way_here : way g base base []
| way_joint : forall j js, In j (sg_joints g) -> way g base (tj_parent j) js -> way g base (tj_child j) (js ++ [j]).
Definition moves (j : tjoint) : bool := match tj_kind j with TFixed => false | _ => true end.
Definition revolves (j : tjoint) : bool := match tj_kind j with TRevolute => true | _ => false end.

(** A KinematicGroup, as far as it is read here: [getLimits().joint_limits] and
    [getRedundancyCapableJointIndices()] *)
Record kin_group := KG { kg_limits : list (R * R); kg_redundant : list nat }.
Definition positions {A} (f : A -> bool) (l : list A) : list nat :=
  map fst (filter (fun p => f (snd p)) (combine (seq 0 (length l)) l)).
(** [env.getKinematicGroup(name)] may answer kg *)
Definition group_of (g : sgraph) (infos : list kin_info) (name : string) (kg : kin_group) : Prop :=
  exists k js, In k infos /\ k_group k = name /\ way g (k_base k) (k_tip k) js /\
    map Some (kg_limits kg) = map (fun j => option_map (fun l => (l_lower l, l_upper l)) (tj_limits j)) (filter moves js) /\
    kg_redundant kg = positions revolves (filter moves js).

(** tesseract.py:1055-1073 [redundant_solutions]; [get] is the library's getRedundantSolutions *)
Definition redundant_solutions (get : list R -> list (R * R) -> list nat -> list (list R)) (kg : kin_group) (theta : list R)
  : list (list R) :=
  get theta (kg_limits kg) (kg_redundant kg).

(** tesseract.py:935-947 [TesseractRobot.redundant_solutions]; [group] is
    self.tesseract_env.getKinematicGroup *)
Definition tess_redundant_solutions (get : list R -> list (R * R) -> list nat -> list (list R)) (group : string -> kin_group)
  (robot_name : string) (theta : list R) : list (list R) :=
  redundant_solutions get (group robot_name) theta.
