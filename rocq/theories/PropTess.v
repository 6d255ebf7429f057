(** Properties of the scene graphs and environments made from robots: C60, C61. *)
From Coq Require Import Reals ZArith Ascii String List Bool Lia Lra.
From Verif Require Import LinAlg RealAux Py FactsReal FactsLinAlg SpecRot ModelRot ModelTransform ModelRobot ModelKin SpecKin FactsKin PropKin.
From Verif Require Import ModelTess SpecTess FactsTess.
Import ListNotations.
Open Scope R_scope.

Lemma graph_placed aa r : (forall A, is_SO3 A -> aa A = A) -> wf_robot r -> wf_aux r -> graphable r ->
  forall theta q, assigns q (moving_joints r) theta ->
  (exists f, placed (SG (graph_links r) (all_joints aa r)) q "base_link" (tip_of r) f) /\
  forall f, placed (SG (graph_links r) (all_joints aa r)) q "base_link" (tip_of r) f -> forall x, f x = plain_point r theta x.
Proof.
  intros AA W WA G theta q AS. set (g := SG _ _).
  destruct (placed_walk g q "base_link" (all_joints aa r) "base_link" (tip_of r) (fun x => x)) as (f0 & P0 & E0);
    [intros x; exact (fun z => z)|apply in_row_all, (gr_some r G)|constructor|].
  assert (E : forall x, f0 x = plain_point r theta x).
  { intros x. rewrite E0. apply walk_all; auto; [apply (wf_H r W)|apply (wf_P r W)|apply (gr_plain r G)|apply (gr_names r G)]. }
  split; [exists f0; exact P0|]. intros f P x. rewrite <- E.
  pose proof (graph_links_nodup r) as N. rewrite <- (all_children aa r) in N. apply NoDup_cons_iff in N as (N1 & N2).
  exact (placed_unique g q "base_link" N2 N1 _ _ P _ P0 x).
Qed.

(** C60.  The pose of the last link of the scene graph, seen from base_link, is fwdkin of the
    robot without its base; the walk reaches the link in one way only. *)
Theorem C60_scene_graph : forall aa r g links names clinks,
  (forall A, is_SO3 A -> aa A = A) -> wf_robot r -> wf_aux r ->
  robot_to_scene_graph aa r = Ok (g, links, names, clinks) ->
  forall theta q, assigns q names theta -> within_limits r theta ->
  exists T, fwdkin (without_base r) theta false = Ok T /\
    (exists f, placed g q "base_link" (List.last links ""%string) f) /\
    forall f, placed g q "base_link" (List.last links ""%string) f -> forall x, f x = act T x.
Proof.
  intros aa r g links names clinks AA W WA E theta q AS WL.
  apply (rsg_iff aa r (wf_H r W) (wf_P r W)) in E. destruct E as (G & [= -> -> -> ->]).
  assert (Lt : List.length theta = List.length (rtype r)).
  { rewrite <- (gr_names r G). clear -AS. induction AS; simpl; congruence. }
  assert (W' : wf_robot (without_base r)) by (destruct W; split; assumption).
  destruct (C20_fwdkin_chain (without_base r) theta W' Lt WL) as (T & F & _ & A).
  exists T. split; auto. destruct (graph_placed aa r AA W WA G theta q AS) as (X & U).
  change (List.last (graph_links r) ""%string) with (tip_link r). rewrite tip_link_eq. split; [exact X|].
  intros f P x. rewrite (U f P x), A. reflexivity.
Qed.

(** C60, with the world joint: the environment reproduces fwdkin of the robot. *)
Theorem C60_environment : forall aa r name solver ov g ks links names,
  (forall A, is_SO3 A -> aa A = A) -> wf_robot r -> wf_aux r ->
  robot_to_tesseract_env aa r name true solver ov = Ok (g, ks, links, names) ->
  forall theta q, assigns q names theta -> within_limits r theta ->
  exists T, fwdkin r theta false = Ok T /\
    (exists f, placed g q "world" (List.last links ""%string) f) /\
    forall f, placed g q "world" (List.last links ""%string) f -> forall x, f x = act T x.
Proof.
  intros aa r name solver ov g ks links names AA W WA E theta q AS WL.
  apply (env_ok aa r name solver ov g ks links names (wf_H r W) (wf_P r W)) in E.
  destruct E as (G & _ & info & _ & -> & _ & -> & ->).
  assert (Lt : List.length theta = List.length (rtype r)).
  { rewrite <- (gr_names r G), <- (map_length (pre name)). clear -AS. induction AS; simpl; congruence. }
  destruct (C20_fwdkin_chain r theta W Lt WL) as (T & F & _ & A).
  exists T. split; auto.
  assert (EL : List.last ("world"%string :: map (pre name) (graph_links r)) ""%string = pre name (tip_of r)).
  { rewrite <- pre_last. reflexivity. }
  rewrite EL.
  destruct (placed_walk (env_graph aa r name) q "world"
    (get_robot_world_to_base_joint aa r name :: map (prefix_joint (name ++ "_")) (all_joints aa r)) "world" (pre name (tip_of r)) (fun x => x))
    as (f0 & P0 & E0).
  { intros x [<-|I]; unfold env_graph; cbn [sg_joints]; apply in_or_app; [right; left; reflexivity|left; exact I]. }
  { split; [reflexivity|]. cbn [get_robot_world_to_base_joint tj_child].
    pose proof (in_row_prefix (name ++ "_") (all_joints aa r) "base_link" (tip_of r) (in_row_all aa r (gr_some r G))) as I.
    rewrite !append_assoc in I. exact I. }
  { constructor. }
  assert (E1 : forall x, f0 x = act T x).
  { intros x. rewrite E0, A. cbn [walk]. rewrite base_walk by (auto; apply (wf_base r WA)). unfold robot_point. f_equal.
    rewrite walk_prefix. apply (walk_all aa AA r _ theta x (wf_H r W) (wf_P r W) WA (gr_plain r G)); [|apply (gr_names r G)].
    apply (assigns_pre q name), AS. }
  split; [exists f0; exact P0|]. intros f P x. rewrite <- E1.
  destruct (env_unique aa r name) as (N1 & N2). exact (placed_unique _ q "world" N1 N2 _ _ P _ P0 x).
Qed.

(** C61.  A well-formed robot becomes a scene graph exactly when it has a joint, only rotary and
    prismatic joints, all four lists of limits, and joint names that do not collide. *)
Theorem C61_iff : forall aa r, wf_robot r -> ((exists res, robot_to_scene_graph aa r = Ok res) <-> graphable r).
Proof.
  intros aa r W. split.
  - intros (res & E). apply (rsg_iff aa r (wf_H r W) (wf_P r W)) in E. tauto.
  - intros G. eexists. apply (rsg_iff aa r (wf_H r W) (wf_P r W)). split; [exact G|reflexivity].
Qed.

(** C61.  The links, the joints and the returned lists. *)
Theorem C61_serial : forall aa r g links names clinks, wf_robot r ->
  robot_to_scene_graph aa r = Ok (g, links, names, clinks) ->
  links = graph_links r /\ sg_links g = links /\ NoDup links /\
  names = moving_joints r /\ clinks = "base_link"%string :: map link_name (seq 1 (List.length (rtype r))) /\
  map (fun j => (tj_parent j, tj_child j)) (sg_joints g) = serial links /\
  map tj_name (sg_joints g) = names ++ fixed_joints r /\ NoDup (names ++ fixed_joints r).
Proof.
  intros aa r g links names clinks W E. apply (rsg_iff aa r (wf_H r W) (wf_P r W)) in E. destruct E as (G & [= -> -> -> ->]).
  cbn [sg_links sg_joints]. split; auto. split; auto. split; [apply graph_links_nodup|]. split; auto. split; auto.
  split; [|split; [apply all_joint_names, (gr_names r G)|apply (gr_unique r G)]].
  rewrite (in_row_serial (all_joints aa r) "base_link" _ (in_row_all aa r (gr_some r G))).
  rewrite all_children. reflexivity.
Qed.

(** C61.  The i-th moving joint has the robot's axis, offset, type and limits; its effort limit
    is 1000. *)
Theorem C61_joints : forall aa r g links names clinks, (forall A, is_SO3 A -> aa A = A) -> wf_robot r ->
  robot_to_scene_graph aa r = Ok (g, links, names, clinks) ->
  forall i, (i < List.length (rtype r))%nat ->
  exists j, nth_error (sg_joints g) i = Some j /\ nth_error names i = Some (tj_name j) /\ carries r i j /\
    tR (tj_origin j) = I3 /\ (forall l, tj_limits j = Some l -> l_effort l = 1000).
Proof.
  intros aa r g links names clinks AA W E i L.
  apply (rsg_iff aa r (wf_H r W) (wf_P r W)) in E. destruct E as (G & [= -> -> -> ->]).
  pose proof G as G'. apply (graphable_good aa) in G'. destruct G' as (_ & LJ & GD & _).
  exists (jt aa r i). cbn [sg_joints]. split.
  { unfold all_joints. rewrite nth_error_app1 by (unfold Jk; rewrite map_length, seq_length; exact L).
    unfold Jk. apply (map_nth_error (jt aa r)). rewrite (nth_error_nth' _ 0%nat) by (rewrite seq_length; exact L).
    rewrite seq_nth by exact L. reflexivity. }
  split.
  { cbn [tj_name jt]. apply nth_error_nth'. lia. }
  split; [|split; [apply AA, SO3_I|intros l [= <-]; reflexivity]].
  eexists. split; [reflexivity|]. cbn [tj_axis tj_origin jt tj_kind].
  pose proof (wf_H r W) as LH. pose proof (wf_P r W) as LP.
  split; [apply nth_error_nth'; lia|]. split; [apply nth_error_nth'; lia|].
  destruct (GD i L) as [PT (lo & Elo & Llo) (up & Eup & Lup) (ve & Eve & Lve) (ac & Eac & Lac) _].
  split; [rewrite (nth_error_nth' (rtype r) Rotary L); destruct PT as [-> | ->]; reflexivity|].
  rewrite Elo, Eup, Eve, Eac. cbn [opt_nth l_lower l_upper l_vel l_acc].
  split; [|split; [|split]]; eexists; (split; [reflexivity|apply nth_error_nth'; assumption]).
Qed.

(** C61.  The environment prefixes every name with the robot's name and adds the world link; its
    group is the chain from world to the last link. *)
Theorem C61_environment : forall aa r name solver ov g ks links names, wf_robot r ->
  robot_to_tesseract_env aa r name true solver ov = Ok (g, ks, links, names) ->
  links = "world"%string :: map (fun l => name ++ "_" ++ l)%string (graph_links r) /\ sg_links g = links /\ NoDup links /\
  names = map (fun l => name ++ "_" ++ l)%string (moving_joints r) /\
  (forall n, In n names -> In n (map tj_name (sg_joints g))) /\ NoDup (map tj_name (sg_joints g)) /\
  exists info, ks = [KI name "world" (List.last links ""%string) info].
Proof.
  intros aa r name solver ov g ks links names W E.
  apply (env_ok aa r name solver ov g ks links names (wf_H r W) (wf_P r W)) in E.
  destruct E as (G & F & info & _ & -> & -> & -> & ->). split; [reflexivity|]. split; [reflexivity|]. split.
  { constructor.
    - intros C. apply in_map_iff in C. destruct C as (s & C & _). revert C. apply pre_not_world.
    - apply FinFun.Injective_map_NoDup; [exact (pre_inj name)|apply graph_links_nodup]. }
  split; [reflexivity|].
  assert (EN : map tj_name (sg_joints (env_graph aa r name)) = map (pre name) (moving_joints r ++ fixed_joints r) ++ [("world_to_" ++ name)%string]).
  { unfold env_graph. cbn [sg_joints]. rewrite map_app, prefix_joint_names, all_joint_names by apply (gr_names r G). reflexivity. }
  rewrite EN. split.
  { intros n I. apply in_or_app. left. rewrite map_app. apply in_or_app. left. exact I. }
  split.
  { apply nodup_app. split; [apply FinFun.Injective_map_NoDup; [exact (pre_inj name)|apply (gr_unique r G)]|].
    split; [constructor; [intros []|constructor]|]. intros x [<-|[]]. exact F. }
  exists info. f_equal. f_equal. rewrite <- pre_last. reflexivity.
Qed.

(** C61.  The environment exists, with the default solver, exactly when the graph does and no joint
    is called world_to_<name> after prefixing. *)
Theorem C61_environment_iff : forall aa r name, wf_robot r ->
  ((exists e, robot_to_tesseract_env aa r name true None None = Ok e) <->
   graphable r /\ forall j, In j (moving_joints r ++ fixed_joints r) -> (name ++ "_" ++ j <> "world_to_" ++ name)%string).
Proof.
  intros aa r name W. split.
  - intros ((((g & ks) & links) & names) & E).
    apply (env_ok aa r name None None g ks links names (wf_H r W) (wf_P r W)) in E.
    destruct E as (G & F & _). split; auto. intros j I C. apply F. rewrite <- C. apply (in_map (pre name)), I.
  - intros (G & F). eexists (_, _, _, _). apply (env_ok aa r name None None _ _ _ _ (wf_H r W) (wf_P r W)).
    split; auto. split.
    { intros C. apply in_map_iff in C. destruct C as (j & C & I). exact (F j I C). }
    eexists. split; [reflexivity|]. split; [reflexivity|]. split; [reflexivity|]. split; reflexivity.
Qed.

(** C61.  Without the world link the environment is always refused. *)
Theorem C61_needs_world : forall aa r name solver ov e, wf_robot r ->
  robot_to_tesseract_env aa r name false solver ov <> Ok e.
Proof.
  intros aa r name solver ov e W E. unfold robot_to_tesseract_env in E.
  apply bind_ok_inv in E as (((cs & links) & names) & E1 & E).
  apply (commands_ok aa r name false solver ov cs links names (wf_H r W) (wf_P r W)) in E1.
  destruct E1 as (_ & info & _ & -> & _). discriminate E.
Qed.

(** C61.  How other robots fail. *)
Theorem C61_errors : forall aa r, wf_robot r ->
  List.length (moving_joints r) = List.length (rtype r) ->
  ((List.length (rtype r) = 0)%nat -> robot_to_scene_graph aa r = Err IndexError) /\
  ((0 < List.length (rtype r))%nat -> rlower r = None \/ rupper r = None \/ rvel r = None \/ racc r = None ->
     (forall l, rlower r = Some l \/ rupper r = Some l \/ rvel r = Some l \/ racc r = Some l -> List.length l = List.length (rtype r)) ->
     robot_to_scene_graph aa r = Err TypeError).
Proof.
  intros aa r W LJ. split.
  - intros Z. unfold robot_to_scene_graph.
    replace (match rnames r with
             | Some l => l
             | None => map (fun i => "joint_" ++ str_nat (i + 1))%string (seq 0 (List.length (rtype r)))
             end) with (moving_joints r) by (unfold moving_joints; rewrite joint_names_eq; destruct (rnames r); reflexivity).
    rewrite LJ, Z. cbn [seq map fold_out]. pose proof (wf_P r W) as LP.
    destruct (rP r) as [|p0 P]; [discriminate LP|]. reflexivity.
  - intros P0 N LL. rewrite rsg_unfold by (auto; apply (wf_P r W)).
    destruct (List.length (rtype r)) as [|n] eqn:En; [lia|].
    cbn [seq fold_out]. unfold sg_step at 1. cbn [bind Lk].
    rewrite (index_some (rH r) 0 vzero) by (rewrite (wf_H r W); lia). cbn [bind].
    rewrite (index_some (rP r) 0 vzero) by (rewrite (wf_P r W); lia). cbn [bind].
    rewrite (index_some (rtype r) 0 Rotary) by lia. cbn [bind].
    assert (K : forall o, (o = None \/ exists l, o = Some l /\ List.length l = S n) ->
       index_opt o 0 = match o with None => Err TypeError | Some l => Ok (nth 0 l 0) end).
    { intros o [->|(l & -> & L)]; auto. simpl. apply index_some. lia. }
    assert (V : forall o : option (list R), (forall l, o = Some l -> List.length l = S n) -> o = None \/ exists l, o = Some l /\ List.length l = S n).
    { intros [l|] V; [right; exists l; auto|auto]. }
    rewrite (K (rlower r)), (K (rupper r)), (K (rvel r)), (K (racc r)) by (apply V; intros l E; apply LL; auto).
    destruct (rlower r); [|reflexivity]. cbn [bind]. destruct (rupper r); [|reflexivity]. cbn [bind].
    destruct (rvel r); [|reflexivity]. cbn [bind]. destruct (racc r); [|reflexivity].
    destruct N as [N|[N|[N|N]]]; discriminate N.
Qed.

(** A concrete robot: a turning and a sliding joint, a base, a flange and a tool. *)
Definition turn_z : mat3 := M3 0 (-1) 0 1 0 0 0 0 1.
Definition demo : robot :=
  Rb [ez; ex] [V3 0 0 1; V3 1 0 0; V3 0 2 0] [Rotary; Prismatic] (Some [-3; 0]) (Some [3; 1]) (Some [1; 1]) (Some [2; 2])
     None (Some turn_z) (Some (V3 0 0 1)) (Some ["a"; "b"]%string) None None
     (Some (Tf turn_z (V3 1 1 1) None None)) (Some (Tf turn_z (V3 5 0 0) None None)).
Lemma turn_z_SO3 : is_SO3 turn_z.
Proof. split; cbv [mmul mT I3 turn_z det dot cross col0 col1 col2 m00 m01 m02 m10 m11 m12 m20 m21 m22 vx vy vz]; [f_equal; ring|ring]. Qed.
Lemma demo_wf : wf_robot demo.
Proof.
  split; try reflexivity.
  - repeat constructor; cbv [unit3 norm2 dot vx vy vz ez ex demo]; ring.
  - intros l [= <-]. reflexivity.
  - intros l [= <-]. reflexivity.
Qed.
Lemma demo_aux : wf_aux demo.
Proof.
  split; try exact turn_z_SO3; [split; discriminate|]. intros A [= <-]. exact turn_z_SO3.
Qed.
Lemma demo_graphable : graphable demo.
Proof.
  split; [simpl; lia|repeat constructor; (left; reflexivity) || (right; reflexivity)| |reflexivity|].
  - do 4 eexists. repeat split; simpl; lia.
  - cbn [moving_joints demo rnames fixed_joints rflange rRtool rptool app].
    repeat (constructor; [cbn [In]; intuition discriminate|]); constructor.
Qed.
Example C60_example : exists g links names clinks, robot_to_scene_graph (fun A => A) demo = Ok (g, links, names, clinks) /\
  assigns (fun n => if String.eqb n "a" then 1 else 1/2) names [1; 1/2] /\ within_limits demo [1; 1/2] /\
  links = ["base_link"; "link_1"; "link_2"; "chain_tip"; "flange"; "tool_tcp"]%string.
Proof.
  eexists _, _, _, _. split; [apply (rsg_iff _ demo eq_refl eq_refl); split; [exact demo_graphable|reflexivity]|].
  split; [|split; [|reflexivity]].
  - repeat constructor.
  - split; repeat constructor; lra.
Qed.
Example C61_example : exists e, robot_to_tesseract_env (fun A => A) demo "arm" true None None = Ok e.
Proof.
  apply (C61_environment_iff _ demo "arm" demo_wf). split; [exact demo_graphable|].
  cbn [moving_joints demo rnames fixed_joints rflange rRtool rptool app In]. intros j H.
  repeat (destruct H as [<-|H]; [discriminate|]). contradiction.
Qed.
(** Names can collide: a joint called to_world of a robot called world. *)
Example C61_collision : graphable (Rb [ez] [vzero; vzero] [Rotary] (Some [0]) (Some [1]) (Some [1]) (Some [1]) None None None
    (Some ["to_world"%string]) None None None None) /\
  forall aa e, robot_to_tesseract_env aa (Rb [ez] [vzero; vzero] [Rotary] (Some [0]) (Some [1]) (Some [1]) (Some [1]) None None None
    (Some ["to_world"%string]) None None None None) "world" true None None <> Ok e.
Proof.
  split.
  - split; [simpl; lia|repeat constructor; left; reflexivity| |reflexivity|].
    + do 4 eexists. repeat split; simpl; lia.
    + cbn [moving_joints rnames fixed_joints rflange rRtool rptool app].
      repeat (constructor; [cbn [In]; intuition discriminate|]); constructor.
  - intros aa e E.
    assert (W : wf_robot (Rb [ez] [vzero; vzero] [Rotary] (Some [0]) (Some [1]) (Some [1]) (Some [1]) None None None
    (Some ["to_world"%string]) None None None None)).
    { split; try reflexivity.
      - repeat constructor; cbv [unit3 norm2 dot vx vy vz ez]; ring.
      - intros l [= <-]. reflexivity.
      - intros l [= <-]. reflexivity. }
    destruct (proj1 (C61_environment_iff aa _ "world" W) (ex_intro _ e E)) as (_ & F).
    apply (F "to_world"%string); [left; reflexivity|reflexivity].
Qed.

Print Assumptions C60_scene_graph.
Print Assumptions C60_environment.
Print Assumptions C61_iff.
Print Assumptions C61_serial.
Print Assumptions C61_joints.
Print Assumptions C61_environment.
Print Assumptions C61_environment_iff.
Print Assumptions C61_needs_world.
Print Assumptions C61_errors.
