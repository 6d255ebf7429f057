(** What a Robot Raconteur robot info document says, by the paths of its entries. *)
From Coq Require Import Reals ZArith String List.
From Verif Require Import LinAlg Py ModelRot ModelTransform ModelRobot ModelRR.
Import ListNotations.
Open Scope R_scope.

Definition at_key (v : yv) (k : string) (w : yv) : Prop := exists m, v = YMap m /\ find_key k m = Some w.
Definition no_key (v : yv) (k : string) : Prop := exists m, v = YMap m /\ find_key k m = None.
(** the entry, with a missing one counting as null *)
Definition maybe (v : yv) (k : string) (w : yv) : Prop := at_key v k w \/ (no_key v k /\ w = YNull).
(** Plain numbers. *)
Inductive ynum : yv -> R -> Prop :=
| yn_int : forall z, ynum (YInt z) (IZR z)
| yn_flt : forall x, ynum (YFlt x) x.
(** [v] has [n] entries *)
Inductive size : yv -> nat -> Prop :=
| size_list : forall l, size (YList l) (List.length l)
| size_map : forall m, size (YMap m) (List.length m)
| size_str : forall s, size (YStr s) (String.length s).
Inductive first_entry : yv -> yv -> Prop :=
| fe_list : forall v l, first_entry (YList (v :: l)) v
| fe_str : forall c s, first_entry (YStr (String c s)) (YStr (String c EmptyString)).

Section Says.
Context (parse : string -> option (flt R)).

(** Numbers, also written as strings. *)
Inductive number : yv -> R -> Prop :=
| n_num : forall v x, ynum v x -> number v x
| n_str : forall s x, parse s = Some (Fin x) -> number (YStr s) x.
Definition at_number (v : yv) (k : string) (x : R) : Prop := exists w, at_key v k w /\ number w x.
Definition says_vec (v : yv) (p : vec3) : Prop :=
  at_number v "x" (vx p) /\ at_number v "y" (vy p) /\ at_number v "z" (vz p).
Definition says_quat (v : yv) (q : quat) : Prop :=
  at_number v "w" (q0 q) /\ at_number v "x" (q1 q) /\ at_number v "y" (q2 q) /\ at_number v "z" (q3 q).
(** A pose (orientation, position) or a transform (rotation, translation). *)
Definition says_transform (v : yv) (T : transform) : Prop :=
  exists o t q, says_quat o q /\ says_vec t (tp T) /\ T = Tf (q2R q) (tp T) None None /\
    (at_key v "orientation" o /\ at_key v "position" t \/
     no_key v "orientation" /\ at_key v "rotation" o /\ at_key v "translation" t).
Definition says_name (v : yv) (s : string) : Prop :=
  v = YStr s \/ at_key v "name" (YStr s).
Definition says_name_opt (v : yv) (s : option string) : Prop :=
  v = YNull /\ s = None \/ v <> YNull /\ exists n, says_name v n /\ s = Some n.
(** One entry of joint_info. *)
Definition says_joint (v : yv) (ty : jtype) (lo up ve ac : R) (name : string) : Prop :=
  (exists t, at_key v "joint_type" (YStr t) /\
     (t = "revolute"%string /\ ty = Rotary \/ t = "prismatic"%string /\ ty = Prismatic)) /\
  (exists l, at_key v "joint_limits" l /\
     at_number l "lower" lo /\ at_number l "upper" up /\ at_number l "velocity" ve /\ at_number l "acceleration" ac) /\
  (exists i, at_key v "joint_identifier" i /\ (i = YNull /\ name = EmptyString \/ i <> YNull /\ says_name i name)).
Inductive says_joints : list yv -> list jtype -> list R -> list R -> list R -> list R -> list string -> Prop :=
| sj_nil : says_joints [] [] [] [] [] [] []
| sj_cons : forall v vs ty tys lo los up ups ve ves ac acs n ns,
    says_joint v ty lo up ve ac n -> says_joints vs tys los ups ves acs ns ->
    says_joints (v :: vs) (ty :: tys) (lo :: los) (up :: ups) (ve :: ves) (ac :: acs) (n :: ns).
Definition says_root (chain : yv) (o : option string) : Prop :=
  no_key chain "link_identifiers" /\ o = None \/
  exists ids, at_key chain "link_identifiers" ids /\
    (size ids 0 /\ o = None \/ exists id, first_entry ids id /\ says_name_opt id o).
(** The tool of the chain and the name of the tip link. *)
Definition says_tool (chain : yv) (Rt : option mat3) (pt : option vec3) (tip : option string) : Prop :=
  exists fid ftip cur, at_key chain "flange_identifier" fid /\ says_name_opt fid ftip /\ maybe chain "current_tool" cur /\
    (cur = YNull /\ Rt = None /\ pt = None /\ tip = ftip \/
     exists tcp, maybe cur "tcp" tcp /\
       (tcp = YNull /\ Rt = None /\ pt = None /\ tip = ftip \/
        exists T info, tcp <> YNull /\ says_transform tcp T /\ Rt = Some (tR T) /\ pt = Some (tp T) /\
          maybe cur "device_info" info /\
          (info = YNull /\ tip = ftip \/ exists dev n, at_key info "device" dev /\ says_name dev n /\ tip = Some n))).
Definition says_base (doc : yv) (o : option transform) : Prop :=
  exists info, maybe doc "device_info" info /\
    (info = YNull /\ o = None \/
     exists op, maybe info "device_origin_pose" op /\
       (op = YNull /\ o = None \/
        exists pose T, at_key op "pose" pose /\ says_transform pose T /\ o = Some T)).

(** The robot of a chain whose joints have the entries [infos]. *)
Record says_robot (doc chain : yv) (infos : list yv) (r : robot) : Prop := {
  sr_H : exists v hs, at_key chain "H" v /\ (v = YList hs \/ (size v 0 /\ hs = [])) /\ Forall2 says_vec hs (rH r);
  sr_P : exists ps, at_key chain "P" (YList ps) /\ Forall2 says_vec ps (rP r);
  sr_joints : exists lo up ve ac ns, says_joints infos (rtype r) lo up ve ac ns /\
    rlower r = Some lo /\ rupper r = Some up /\ rvel r = Some ve /\ racc r = Some ac /\ rnames r = Some ns;
  sr_M : rM r = None;
  sr_root : says_root chain (rroot r);
  sr_flange : exists v T, at_key chain "flange_pose" v /\ says_transform v T /\ rflange r = Some T;
  sr_tool : says_tool chain (rRtool r) (rptool r) (rtip r);
  sr_base : says_base doc (rbase r);
  sr_shape : List.length (rH r) = List.length (rtype r) /\ List.length (rP r) = S (List.length (rtype r));
  sr_unit : Forall (fun h => Rabs (norm h - 1) <= 1/100000000 + 1/100000) (rH r) }.
End Says.

(** The chain with number [c]. *)
Definition chain_at (doc : yv) (c : nat) (chain : yv) : Prop :=
  exists cs, at_key doc "chains" (YList cs) /\ nth_error cs c = Some chain.
(** Joint numbers as documented: indices into joint_info, increasing. *)
Definition joint_numbers (doc chain : yv) (ns : list nat) : Prop :=
  at_key chain "joint_numbers" (YList (map (fun n => YInt (Z.of_nat n)) ns)).
Definition increasing (ns : list nat) : Prop :=
  forall i a b, nth_error ns i = Some a -> nth_error ns (S i) = Some b -> (a < b)%nat.
Definition joint_info (doc : yv) (infos : list yv) : Prop := at_key doc "joint_info" (YList infos).
(** the entries of the chain's own joints *)
Definition own_infos (infos : list yv) (ns : list nat) (l : list yv) : Prop :=
  Forall2 (fun n v => nth_error infos n = Some v) ns l.

(** What the loader accepts. *)
(** the chain found under a Python index, which may be negative *)
Definition picks (doc : yv) (c : Z) (chain : yv) : Prop :=
  exists cs k, at_key doc "chains" (YList cs) /\ nth_error cs k = Some chain /\
    (Z.of_nat k = c \/ (c < 0)%Z /\ Z.of_nat k = (c + Z.of_nat (List.length cs))%Z).
(** the checks made on the joint numbers: none on the first one *)
Definition checked (doc nums : yv) (n : nat) : Prop :=
  forall i, (1 <= i < n)%nat -> exists l a b x y info k,
    nums = YList l /\ nth_error l (i - 1) = Some a /\ nth_error l i = Some b /\ ynum a x /\ ynum b y /\ x < y /\
    at_key doc "joint_info" info /\ size info k /\ y < INR k.
Definition accepted_numbers (doc chain : yv) (n : nat) : Prop :=
  exists nums, at_key chain "joint_numbers" nums /\ size nums n /\ checked doc nums n.
(** the first [n] entries of joint_info *)
Definition first_infos (doc : yv) (n : nat) (infos : list yv) : Prop :=
  List.length infos = n /\ (n = 0%nat \/ exists l, joint_info doc l /\ firstn n l = infos).
