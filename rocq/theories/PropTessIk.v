(** Properties of the solver parameters, plugin information and the TesseractRobot class:
    C62, C72, C73, C74, C75. *)
From Coq Require Import Reals ZArith String List Bool Lia Lra.
From Verif Require Import LinAlg RealAux Py FactsReal FactsLinAlg SpecRot ModelRot FactsRot ModelTransform ModelRobot ModelKin SpecKin FactsKin FactsJac PropKin SpecSub SpecInvkin.
From Verif Require Import ModelTess SpecTess FactsTess FactsTessIk FactsTessEnv PropTess.
Import ListNotations.
Open Scope R_scope.

Definition at_rest (h : vec3) : list vec3 := [ez; h; h; h; vneg ez; h].

(* ================= C62 ================= *)
(** C62.  A UR robot at its factory position is accepted.  The parameters describe it, between the
    turned base and the flange, up to the offset of the last column of P, which is not read. *)
Theorem C62_described : forall r p6, ur_exact r (at_rest (vneg ey)) -> nth_error (rP r) 6 = Some p6 ->
  exists p, robot_to_ur_inv_kin_parameters r = Ok p /\ forall q1 q2 q3 q4 q5 q6 x,
  world_flange r [q1; q2; q3; q4; q5; q6] x = rotate ez PI (ur_dh p q1 q2 q3 q4 q5 q6 (vadd (V3 0 0 (- vy p6)) x)).
Proof.
  intros r p6 X E6. destruct (ue_P r _ X) as (d1 & y1 & a2 & y2 & a3 & y3 & y4 & z4 & y5 & y6 & P).
  rewrite P in E6. injection E6 as <-. eexists. split; [exact (ur_params_minus r X _ _ _ _ _ _ _ _ _ _ P)|].
  intros q1 q2 q3 q4 q5 q6 x. exact (ur_flange r X _ _ _ _ _ _ _ _ _ _ P q1 q2 q3 q4 q5 q6 x).
Qed.

(** C62.  The parameters describe the robot exactly when that column is 0. *)
Theorem C62_described_iff : forall r p p6, ur_exact r (at_rest (vneg ey)) -> nth_error (rP r) 6 = Some p6 ->
  robot_to_ur_inv_kin_parameters r = Ok p -> (ur_solves p (world_flange r) <-> p6 = vzero).
Proof.
  intros r p p6 X E6 E. destruct (C62_described r p6 X E6) as (p' & E' & D). rewrite E in E'. injection E' as <-.
  destruct (ue_P r _ X) as (d1 & y1 & a2 & y2 & a3 & y3 & y4 & z4 & y5 & y6 & P).
  rewrite P in E6. injection E6 as <-. cbn [vy] in D. split.
  - intros S. pose proof (D 0 0 0 0 0 0 vzero) as D0. rewrite (S 0 0 0 0 0 0 vzero) in D0.
    apply (rotate_inj _ _ _ _ unit_ez) in D0. apply ur_dh_inj in D0. apply (f_equal vz) in D0.
    cbv [vadd vzero vx vy vz] in D0. unfold vzero. f_equal. lra.
  - intros Z q1 q2 q3 q4 q5 q6 x. rewrite D. injection Z as ->. do 2 f_equal. destruct x as [a b c]. cbv [vadd vx vy vz]. f_equal; ring.
Qed.

(** C62.  The axes of the URDF definition, accepted by ur_invkin, are always refused. *)
Theorem C62_urdf_axes : forall r p0 p1 p2 p3 p4 p5 p6, ur r ey p0 p1 p2 p3 p4 p5 p6 ->
  robot_to_ur_inv_kin_parameters r = Err AssertionError.
Proof. intros r p0 p1 p2 p3 p4 p5 p6 U. apply ur_urdf_layout. exact (ur_H _ _ _ _ _ _ _ _ _ U). Qed.

(** C62.  The second set of axes that is accepted is the mirror image of the first one; its
    parameters never describe the robot, and no others do. *)
Theorem C62_mirrored : forall r, ur_exact r (map vneg (at_rest (vneg ey))) ->
  (exists p, robot_to_ur_inv_kin_parameters r = Ok p) /\ forall p, ~ ur_solves p (world_flange r).
Proof. intros r X. split; [exact (ur_params_plus r X)|]. intros p. exact (ur_plus_differs r p X). Qed.

(** Examples: a UR robot with axes H, last column p6 and tool offset. *)
Definition ur_demo (H : list vec3) (p6 : vec3) (Rt : option mat3) (pt : option vec3) : robot :=
  Rb H [V3 0 0 1; V3 0 0 0; V3 (-2) 0 0; V3 (-1) 0 0; V3 0 (-1/2) (-1/4); V3 0 (-1/5) 0; p6]
    [Rotary; Rotary; Rotary; Rotary; Rotary; Rotary]
    (Some [-3; -3; -3; -3; -3; -3]) (Some [3; 3; 3; 3; 3; 3]) (Some [1; 1; 1; 1; 1; 1]) (Some [1; 1; 1; 1; 1; 1]) None Rt pt None None None
    (Some (Tf (of_cols ex ez (vneg ey)) vzero None None)) (Some (Tf (M3 (-1) 0 0 0 (-1) 0 0 0 1) vzero None None)).
Lemma ur_demo_exact H y Rt pt : ur_exact (ur_demo H (V3 0 y 0) Rt pt) H.
Proof.
  split; try reflexivity; [do 2 eexists; reflexivity|do 2 eexists; reflexivity|].
  exists 1, 0, (-2), 0, (-1), 0, (-1/2), (-1/4), (-1/5), y. reflexivity.
Qed.
Lemma unit_at_rest h : unit3 h -> Forall unit3 (at_rest h).
Proof. intros U. repeat constructor; auto; cbv [unit3 norm2 dot vneg ez vx vy vz]; ring. Qed.
Lemma unit_vneg h : unit3 h -> unit3 (vneg h).
Proof. intros U. destruct h as [a b c]. cbv [unit3 norm2 dot vneg vx vy vz] in *. lra. Qed.
Lemma ur_demo_wf H p6 Rt pt : List.length H = 6%nat -> Forall unit3 H -> wf_robot (ur_demo H p6 Rt pt).
Proof.
  intros L U. split; auto; try reflexivity.
  - intros l [= <-]. reflexivity.
  - intros l [= <-]. reflexivity.
Qed.
Example C62_example : ur_exact (ur_demo (at_rest (vneg ey)) vzero None None) (at_rest (vneg ey)) /\
  wf_robot (ur_demo (at_rest (vneg ey)) vzero None None) /\
  exists p, robot_to_ur_inv_kin_parameters (ur_demo (at_rest (vneg ey)) vzero None None) = Ok p /\
  ur_solves p (world_flange (ur_demo (at_rest (vneg ey)) vzero None None)).
Proof.
  assert (X := ur_demo_exact (at_rest (vneg ey)) 0 None None). split; [exact X|].
  split; [apply ur_demo_wf; [reflexivity|apply unit_at_rest, unit_vneg, unit_ey]|].
  destruct (C62_described _ (V3 0 0 0) X eq_refl) as (p & E & _). exists p. split; [exact E|].
  apply (C62_described_iff _ p (V3 0 0 0) X eq_refl E). reflexivity.
Qed.

(** C62 is false: the URDF axes are refused, the mirrored ones are accepted and misdescribed, and
    so is an offset in the last column of P. *)
Theorem C62_refuted :
  (exists r p0 p1 p2 p3 p4 p5 p6, ur r ey p0 p1 p2 p3 p4 p5 p6 /\ robot_to_ur_inv_kin_parameters r = Err AssertionError) /\
  (exists r p, wf_robot r /\ robot_to_ur_inv_kin_parameters r = Ok p /\ rH r = map vneg (at_rest (vneg ey)) /\ ~ ur_solves p (world_flange r)) /\
  (exists r p p0 p1 p2 p3 p4 p5 p6, ur r (vneg ey) p0 p1 p2 p3 p4 p5 p6 /\ robot_to_ur_inv_kin_parameters r = Ok p /\ ~ ur_solves p (world_flange r)).
Proof.
  split; [|split].
  - assert (U : ur (ur_demo (at_rest ey) vzero None None) ey (V3 0 0 1) (V3 0 0 0) (V3 (-2) 0 0) (V3 (-1) 0 0) (V3 0 (-1/2) (-1/4)) (V3 0 (-1/5) 0) vzero).
    { split; try reflexivity; auto; [apply ur_demo_wf; [reflexivity|apply unit_at_rest, unit_ey]| |];
        cbv [on_axis perp vsub vscale dot ez ey vzero vx vy vz]; f_equal; ring. }
    do 8 eexists. split; [exact U|]. exact (C62_urdf_axes _ _ _ _ _ _ _ _ U).
  - assert (X := ur_demo_exact (map vneg (at_rest (vneg ey))) 0 None None).
    destruct (C62_mirrored _ X) as ((p & E) & N). do 2 eexists. split; [|split; [exact E|split; [reflexivity|exact (N p)]]].
    apply ur_demo_wf; [reflexivity|]. apply Forall_map. eapply Forall_impl; [|apply unit_at_rest, unit_vneg, unit_ey].
    intros a. apply unit_vneg.
  - assert (X := ur_demo_exact (at_rest (vneg ey)) 1 None None).
    destruct (C62_described _ (V3 0 1 0) X eq_refl) as (p & E & _).
    exists (ur_demo (at_rest (vneg ey)) (V3 0 1 0) None None), p. do 7 eexists. split; [|split; [exact E|]].
    + split; try reflexivity; auto; [apply ur_demo_wf; [reflexivity|apply unit_at_rest, unit_vneg, unit_ey]| |];
        cbv [on_axis perp vsub vscale dot ez ey vneg vzero vx vy vz]; f_equal; ring.
    + intros S. apply (C62_described_iff _ p (V3 0 1 0) X eq_refl E) in S. injection S. lra.
Qed.

(* ================= C72 ================= *)
(** C72.  A robot outstretched along x at zero is accepted, and the parameters, up to rounding to
    six and eight decimals, describe it from its base to its flange. *)
Theorem C72_described : forall r, opw_exact r ex -> exists p p0,
  robot_to_opw_inv_kin_parameters r = Ok p /\ rounded p p0 /\ opw_solves p0 (flange_point r).
Proof. intros r X. destruct (opw_x r X) as (p & p0 & E & RD & S & _). exists p, p0. auto. Qed.

(** C72.  A robot pointing upwards at zero is accepted too, but the required flange does not suit it:
    the parameters describe it with the flange turned by a quarter turn about y... *)
Theorem C72_upwards : forall r, opw_exact r ez -> exists p p0,
  robot_to_opw_inv_kin_parameters r = Ok p /\ rounded p p0 /\
  opw_solves p0 (fun theta x => flange_point r theta (rotate ey (- (PI / 2)) x)).
Proof.
  intros r X. destruct (opw_z r X) as (p & p0 & E & RD & D). exists p, p0. split; auto. split; auto.
  intros q1 q2 q3 q4 q5 q6 x. cbv beta. rewrite D. f_equal. rewrite rotate_ey_ey_add.
  replace (PI / 2 + - (PI / 2)) with 0 by ring. apply rotate_zero.
Qed.
(** ... and no parameters at all describe the robot itself. *)
Theorem C72_upwards_none : forall r p, opw_exact r ez -> ~ opw_solves p (flange_point r).
Proof. exact opw_z_differs. Qed.

Definition opw_demo (e : vec3) (Rt : option mat3) (pt : option vec3) : robot :=
  Rb [ez; ey; ey; vneg e; ey; e] [V3 0 0 0; V3 (1/3) 0 (1/2); V3 0 0 (3/4); V3 (1/4) 0 (1/5); vscale (1/2) e; vscale (1/8) e; vscale (1/16) e]
    [Rotary; Rotary; Rotary; Rotary; Rotary; Rotary]
    (Some [-3; -3; -3; -3; -3; -3]) (Some [3; 3; 3; 3; 3; 3]) (Some [1; 1; 1; 1; 1; 1]) (Some [1; 1; 1; 1; 1; 1]) None Rt pt None None None
    (Some (Tf (of_cols (vneg ez) ey ex) vzero None None)) None.
Lemma opw_demo_exact e Rt pt : opw_exact (opw_demo e Rt pt) e.
Proof.
  split; [reflexivity|do 2 eexists; reflexivity|].
  exists ez, ey, ey, (vneg e), ey, e, 0, (V3 (1/3) 0 (1/2)), (V3 0 0 (3/4)), (V3 (1/4) 0 (1/5)), (1/2), (1/8), (1/16).
  split; [reflexivity|]. split.
  { cbn [opw_demo rP]. f_equal. vec_ring. }
  unfold along, not_tiny. cbn [vx vz]. repeat (split; [auto; fail|]). right. rewrite Rabs_pos_eq; lra.
Qed.
Lemma unit_ex : unit3 ex.
Proof. cbv [unit3 norm2 dot ex vx vy vz]. ring. Qed.
Lemma opw_demo_wf e Rt pt : unit3 e -> wf_robot (opw_demo e Rt pt).
Proof.
  intros U. split; try reflexivity.
  - repeat constructor; auto using unit_ey, unit_ez, unit_vneg.
  - intros l [= <-]. reflexivity.
  - intros l [= <-]. reflexivity.
Qed.
Example C72_example : wf_robot (opw_demo ex None None) /\ opw_exact (opw_demo ex None None) ex.
Proof. split; [apply opw_demo_wf, unit_ex|apply opw_demo_exact]. Qed.
(** C72 is false for robots pointing upwards. *)
Theorem C72_refuted : exists r p, wf_robot r /\ robot_to_opw_inv_kin_parameters r = Ok p /\
  forall p0, ~ opw_solves p0 (flange_point r).
Proof.
  destruct (C72_upwards _ (opw_demo_exact ez None None)) as (p & _ & E & _). exists (opw_demo ez None None), p.
  split; [apply opw_demo_wf, unit_ez|]. split; [exact E|]. intros p0. apply C72_upwards_none, opw_demo_exact.
Qed.

(* ================= C73 ================= *)
Definition solvers : list string := ["KDLInvKinChainLMA"; "KDLInvKinChainNR"; "OPWInvKin"; "URInvKin"]%string.
Definition chosen (solver : option string) : string := match solver with Some s => s | None => "KDLInvKinChainLMA"%string end.

Ltac ent := repeat (eapply entry_in; [repeat (first [left; reflexivity | right])|]); apply entry_here.

Lemma opw_flange r p : robot_to_opw_inv_kin_parameters r = Ok p -> exists T, rflange r = Some T.
Proof. unfold robot_to_opw_inv_kin_parameters. destruct (rflange r) as [T|]; [eauto|discriminate]. Qed.
Lemma ur_has_flange r p : robot_to_ur_inv_kin_parameters r = Ok p -> exists T, rflange r = Some T.
Proof. unfold robot_to_ur_inv_kin_parameters. destruct (rflange r) as [T|]; [eauto|discriminate]. Qed.

(** what the four solvers write *)
Lemma solver_info r name clinks b0 solver tip d libs : hd_error clinks = Some b0 ->
  invkin_info r name clinks solver None "world" tip = Ok (d, libs) ->
  let s := chosen solver in
  In s solvers /\ exists inv cls b t rest, getitem d "inv_kin_plugins" = Ok (PDict [(name, PDict [("default", PStr s); ("plugins", PDict inv)])])%string /\
  In (s, plugin cls (base_tip b t ++ rest)) inv /\
  ((s = "OPWInvKin" /\ b = b0 /\ t = (name ++ "_flange") /\ exists p, robot_to_opw_inv_kin_parameters r = Ok p /\
      rest = [("params", PDict [("a1", PNum (o_a1 p)); ("a2", PNum (o_a2 p)); ("b", PNum (o_b p));
                             ("c1", PNum (o_c1 p)); ("c2", PNum (o_c2 p)); ("c3", PNum (o_c3 p)); ("c4", PNum (o_c4 p));
                             ("offsets", PList (map PNum (o_offsets p)));
                             ("sign_corrections", PList (map (fun s => PInt (to_int8 s)) (o_signs p)))])]) \/
   (s = "URInvKin" /\ b = "world" /\ t = tip /\ exists p, robot_to_ur_inv_kin_parameters r = Ok p /\
      rest = [("params", PDict [("d1", PNum (u_d1 p)); ("a2", PNum (u_a2 p)); ("a3", PNum (u_a3 p));
                             ("d4", PNum (u_d4 p)); ("d5", PNum (u_d5 p)); ("d6", PNum (u_d6 p))])]) \/
   ((s = "KDLInvKinChainLMA" \/ s = "KDLInvKinChainNR") /\ b = "world" /\ t = tip /\ rest = []))%string.
Proof.
  intros HD E. cbv zeta. unfold invkin_info in E. fold (chosen solver) in E. revert E. generalize (chosen solver). intros s.
  destruct (String.eqb_spec s "KDLInvKinChainLMA") as [-> | N1]; cbn [orb].
  { intros [= <- <-]. split; [left; reflexivity|]. eexists _, _, "world"%string, tip, []. split; [reflexivity|]. split; [left; reflexivity|].
    right. right. auto. }
  destruct (String.eqb_spec s "KDLInvKinChainNR") as [-> | N2]; cbn [orb].
  { intros [= <- <-]. split; [right; left; reflexivity|]. eexists _, _, "world"%string, tip, []. split; [reflexivity|]. split; [right; left; reflexivity|].
    right. right. auto. }
  destruct (String.eqb_spec s "OPWInvKin") as [-> | N3].
  { intros E. apply bind_ok_inv in E as (p & Ep & E). destruct clinks as [|b0' cl]; [discriminate|]. injection HD as ->.
    cbn [index nth_error bind] in E. injection E as <- <-. split; [right; right; left; reflexivity|].
    do 5 eexists. split; [reflexivity|]. split; [left; reflexivity|]. left. split; auto. split; auto. split; auto. exists p. auto. }
  destruct (String.eqb_spec s "URInvKin") as [-> | N4]; [|discriminate].
  intros E. apply bind_ok_inv in E as (p & Ep & E). injection E as <- <-. split; [right; right; right; left; reflexivity|].
  do 5 eexists. split; [reflexivity|]. split; [left; reflexivity|]. right. left. split; auto. split; auto. split; auto. exists p. auto.
Qed.

(** C73.  Without an override: the solver is one of four; the group's forward and inverse plugins
    are written under the robot's name, with the solver as default; the default plugin is
    configured and the links it names exist. *)
Theorem C73_solver : forall aa r name solver g ks links names, wf_robot r ->
  robot_to_tesseract_env aa r name true solver None = Ok (g, ks, links, names) ->
  let s := chosen solver in
  In s solvers /\ exists info, ks = [KI name "world" (List.last links ""%string) info] /\
  (entry info ["kinematic_plugins"; "fwd_kin_plugins"; name; "default"] (PStr "KDLFwdKinChain") /\
   entry info ["kinematic_plugins"; "fwd_kin_plugins"; name; "plugins"; "KDLFwdKinChain"; "config"; "base_link"] (PStr "world") /\
   entry info ["kinematic_plugins"; "fwd_kin_plugins"; name; "plugins"; "KDLFwdKinChain"; "config"; "tip_link"] (PStr (List.last links "")) /\
   entry info ["kinematic_plugins"; "inv_kin_plugins"; name; "default"] (PStr s) /\
   exists b t, In b links /\ In t links /\
   entry info ["kinematic_plugins"; "inv_kin_plugins"; name; "plugins"; s; "config"; "base_link"] (PStr b) /\
   entry info ["kinematic_plugins"; "inv_kin_plugins"; name; "plugins"; s; "config"; "tip_link"] (PStr t))%string.
Proof.
  intros aa r name solver g ks links names W E.
  apply (env_ok aa r name solver None g ks links names (wf_H r W) (wf_P r W)) in E.
  destruct E as (G & _ & info & EI & _ & -> & -> & _). cbv zeta.
  apply info_ok in EI. destruct EI as (d & libs & inv & E1 & E2 & ->).
  apply (solver_info r name _ (pre name "base_link")) in E1; [|reflexivity].
  destruct E1 as (IS & inv' & cls & b & t & rest & E3 & I & C). split; [exact IS|].
  rewrite E2 in E3. injection E3 as ->.
  assert (EL : List.last ("world"%string :: map (pre name) (graph_links r)) ""%string = pre name (tip_of r)).
  { rewrite <- pre_last. reflexivity. }
  rewrite EL. eexists. split; [reflexivity|]. split; [ent|]. split; [ent|]. split; [ent|]. split; [ent|].
  exists b, t.
  assert (TI : In (pre name (tip_of r)) ("world"%string :: map (pre name) (graph_links r))).
  { right. rewrite <- EL. change (List.last ("world"%string :: map (pre name) (graph_links r)) ""%string)
      with (List.last (map (pre name) (graph_links r)) ""%string). unfold graph_links. cbn [map]. apply last_in. }
  split; [|split; [|split]].
  - destruct C as [(_ & -> & _)|[(_ & -> & _)|(_ & -> & _)]]; [right|left; reflexivity|left; reflexivity].
    left. reflexivity.
  - destruct C as [(_ & _ & -> & p & Ep & _)|[(_ & _ & -> & _)|(_ & _ & -> & _)]]; auto.
    right. destruct (opw_flange r p Ep) as (T & F). apply (in_map (pre name)). unfold graph_links, flange_links. rewrite F.
    right. apply in_or_app. right. right. left. reflexivity.
  - eapply entry_in; [left; reflexivity|]. eapply entry_in; [right; right; left; reflexivity|].
    eapply entry_in; [left; reflexivity|]. eapply entry_in; [right; left; reflexivity|].
    eapply entry_in; [exact I|]. ent.
  - eapply entry_in; [left; reflexivity|]. eapply entry_in; [right; right; left; reflexivity|].
    eapply entry_in; [left; reflexivity|]. eapply entry_in; [right; left; reflexivity|].
    eapply entry_in; [exact I|]. ent.
Qed.

(** errors of the choice of the solver are errors of the call *)
Lemma choice_error aa r name w solver ov e : wf_robot r -> graphable r ->
  (forall clinks tip, clinks <> [] -> invkin_info r name clinks solver ov "world" tip = Err e) ->
  robot_to_tesseract_env aa r name w solver ov = Err e.
Proof.
  intros W G H. unfold robot_to_tesseract_env, robot_to_tesseract_env_commands.
  rewrite (proj2 (rsg_iff aa r (wf_H r W) (wf_P r W) _) (conj G eq_refl)). cbn [bind].
  rewrite (index_last_ok _ ""%string) by discriminate. cbn [bind].
  unfold tesseract_kinematics_information, kinematics_plugin_info_dict. cbn [bind fwdkin_kdl].
  rewrite H by discriminate. reflexivity.
Qed.

(** C73.  Any other solver is refused. *)
Theorem C73_unknown : forall aa r name w s, wf_robot r -> graphable r -> ~ In s solvers ->
  robot_to_tesseract_env aa r name w (Some s) None = Err AssertionError.
Proof.
  intros aa r name w s W G N. apply choice_error; auto. intros clinks tip _. unfold invkin_info.
  unfold solvers in N. cbn [In] in N.
  destruct (String.eqb_spec s "KDLInvKinChainLMA"); [exfalso; auto|].
  destruct (String.eqb_spec s "KDLInvKinChainNR"); [exfalso; auto|].
  destruct (String.eqb_spec s "OPWInvKin"); [exfalso; auto|].
  destruct (String.eqb_spec s "URInvKin"); [exfalso; auto 6|]. reflexivity.
Qed.

(** C73.  The two closed-form solvers refuse robots without their structure, with the error of the
    conversion. *)
Theorem C73_unsuitable : forall aa r name w e, wf_robot r -> graphable r ->
  (robot_to_opw_inv_kin_parameters r = Err e -> robot_to_tesseract_env aa r name w (Some "OPWInvKin"%string) None = Err e) /\
  (robot_to_ur_inv_kin_parameters r = Err e -> robot_to_tesseract_env aa r name w (Some "URInvKin"%string) None = Err e).
Proof.
  intros aa r name w e W G. split; intros E; apply choice_error; auto; intros clinks tip _; unfold invkin_info; cbn; rewrite E; reflexivity.
Qed.

(** C73.  An override given as a pair of a dict and a list of libraries is used whatever the solver;
    without the key inv_kin_plugins it is refused. *)
Theorem C73_override : forall aa r name solver d libs, wf_robot r -> graphable r ->
  (forall g ks links names, robot_to_tesseract_env aa r name true solver (Some (OPair (PDict d) libs)) = Ok (g, ks, links, names) ->
     exists info inv, ks = [KI name "world" (List.last links ""%string) info] /\
     entry (PDict d) ["inv_kin_plugins"%string] inv /\ entry info ["kinematic_plugins"; "inv_kin_plugins"]%string inv) /\
  ((forall v, ~ entry (PDict d) ["inv_kin_plugins"%string] v) ->
     robot_to_tesseract_env aa r name true solver (Some (OPair (PDict d) libs)) = Err KeyError).
Proof.
  intros aa r name solver d libs W G.
  assert (AS : forall k l v, assoc k l = Some v -> In (k, v) l).
  { intros k l v. induction l as [|[k' v'] l IH]; cbn [assoc]; [discriminate|].
    destruct (String.eqb_spec k k') as [-> |]; [intros [= ->]; left; reflexivity|right; auto]. }
  split.
  - intros g ks links names E.
    apply (env_ok aa r name solver _ g ks links names (wf_H r W) (wf_P r W)) in E.
    destruct E as (_ & _ & info & EI & _ & -> & -> & _).
    apply info_ok in EI. destruct EI as (d' & libs' & inv & E1 & E2 & ->). cbn [invkin_info] in E1. injection E1 as <- <-.
    cbn [getitem] in E2. destruct (assoc "inv_kin_plugins" d) as [v|] eqn:EA; [|discriminate]. injection E2 as ->.
    assert (EL : List.last ("world"%string :: map (pre name) (graph_links r)) ""%string = pre name (tip_of r)).
    { rewrite <- pre_last. reflexivity. }
    rewrite EL. do 2 eexists. split; [reflexivity|]. split; [|ent]. eapply entry_in; [exact (AS _ _ _ EA)|constructor].
  - intros N. unfold robot_to_tesseract_env, robot_to_tesseract_env_commands.
    rewrite (proj2 (rsg_iff aa r (wf_H r W) (wf_P r W) _) (conj G eq_refl)). cbn [bind].
    rewrite (index_last_ok _ ""%string) by discriminate. cbn [bind].
    unfold tesseract_kinematics_information, kinematics_plugin_info_dict. cbn [bind fwdkin_kdl invkin_info fst snd].
    cbn [getitem plugins assoc String.eqb Ascii.eqb Bool.eqb bind].
    destruct (assoc "inv_kin_plugins" d) as [v|] eqn:EA; [|reflexivity].
    exfalso. apply (N v). eapply entry_in; [exact (AS _ _ _ EA)|constructor].
Qed.

(** C73.  A string, which is what the documentation asks for, is always refused. *)
Theorem C73_string : forall aa r name w solver s, wf_robot r -> graphable r ->
  robot_to_tesseract_env aa r name w solver (Some (OString s)) = Err ValueError \/
  robot_to_tesseract_env aa r name w solver (Some (OString s)) = Err TypeError.
Proof.
  intros aa r name w solver s W G. destruct (Nat.eqb (String.length s) 2) eqn:L.
  - right. apply choice_error; auto. intros clinks tip _. cbn [invkin_info]. rewrite L. reflexivity.
  - left. apply choice_error; auto. intros clinks tip _. cbn [invkin_info]. rewrite L. reflexivity.
Qed.
Theorem C73_string_refuted : exists r s, wf_robot r /\ graphable r /\ forall aa e, robot_to_tesseract_env aa r "arm" true None (Some (OString s)) <> Ok e.
Proof.
  exists demo, "inv_kin_plugins: {}"%string. split; [exact demo_wf|]. split; [exact demo_graphable|]. intros aa e E.
  destruct (C73_string aa demo "arm" true None "inv_kin_plugins: {}" demo_wf demo_graphable) as [F|F]; rewrite F in E; discriminate.
Qed.

(* ================= C74 ================= *)
(** C74.  With OPWInvKin the configured base and tip links are where the parameters say: the tip is
    carried, seen from the base, as the OPW arm with these parameters (up to rounding). *)
Theorem C74_opw : forall aa r name g ks links names, (forall A, is_SO3 A -> aa A = A) -> wf_robot r -> wf_aux r -> opw_exact r ex ->
  robot_to_tesseract_env aa r name true (Some "OPWInvKin"%string) None = Ok (g, ks, links, names) ->
  exists info b t d p p0, ks = [KI name "world" (List.last links ""%string) info] /\
  (entry info ["kinematic_plugins"; "inv_kin_plugins"; name; "plugins"; "OPWInvKin"; "config"; "base_link"] (PStr b) /\
   entry info ["kinematic_plugins"; "inv_kin_plugins"; name; "plugins"; "OPWInvKin"; "config"; "tip_link"] (PStr t) /\
   entry info ["kinematic_plugins"; "inv_kin_plugins"; name; "plugins"; "OPWInvKin"; "config"; "params"] d)%string /\
  opw_written d p /\ rounded p p0 /\
  forall q q1 q2 q3 q4 q5 q6, assigns q names [q1; q2; q3; q4; q5; q6] ->
  (exists fb ft, placed g q "world" b fb /\ placed g q "world" t ft) /\
  forall fb ft, placed g q "world" b fb -> placed g q "world" t ft -> forall x, ft x = fb (opw_arm p0 q1 q2 q3 q4 q5 q6 x).
Proof.
  intros aa r name g ks links names AA W WA X E.
  apply (env_ok aa r name _ None g ks links names (wf_H r W) (wf_P r W)) in E.
  destruct E as (G & _ & info & EI & -> & -> & -> & ->).
  apply info_ok in EI. destruct EI as (d & libs & inv & E1 & E2 & ->).
  destruct (opw_x r X) as (p & p0 & EP & RD & SV & z & EZ).
  unfold invkin_info in E1. cbn [String.eqb Ascii.eqb Bool.eqb orb] in E1. rewrite EP in E1. cbn [bind index nth_error] in E1.
  injection E1 as <- <-. cbn [invkin_opw fst getitem plugins assoc String.eqb Ascii.eqb Bool.eqb] in E2. injection E2 as <-.
  assert (EL : List.last ("world"%string :: map (pre name) (graph_links r)) ""%string = pre name (tip_of r)).
  { rewrite <- pre_last. reflexivity. }
  rewrite EL. do 4 eexists. exists p, p0. split; [reflexivity|]. split; [split; [ent|split; ent]|]. split; [|split; [exact RD|]].
  { unfold opw_written. split; [ent|]. split; [ent|]. split; [ent|]. split; [ent|]. split; [ent|]. split; [ent|]. split; [ent|].
    split; [ent|]. exists z. rewrite (rd_sign p p0 RD), EZ. split; [reflexivity|].
    rewrite map_map, (map_ext _ PInt) by (intros a; rewrite int8_int; reflexivity). ent. }
  intros q q1 q2 q3 q4 q5 q6 AS. destruct (opw_flange r p EP) as (T & F).
  destruct (place_base aa AA r name q G WA) as (fb0 & Pb & Eb).
  destruct (place_flange aa AA r name q _ W G WA AS) as (ft0 & Pt & Et).
  unfold tool_parent in Pt. rewrite F in Pt.
  split; [exists fb0, ft0; split; [exact Pb|exact Pt]|].
  intros fb ft Qb Qt x. rewrite (place_same aa r name q _ _ _ Qb Pb), (place_same aa r name q _ _ _ Qt Pt), Eb, Et.
  unfold world_flange. rewrite SV. reflexivity.
Qed.

(** C74.  With URInvKin the configured links are the world and the last link.  They are where the
    parameters say exactly when the robot has no tool (or one that moves nothing). *)
Theorem C74_ur : forall aa r name g ks links names, (forall A, is_SO3 A -> aa A = A) -> wf_robot r -> wf_aux r ->
  ur_exact r (at_rest (vneg ey)) -> nth_error (rP r) 6 = Some vzero ->
  robot_to_tesseract_env aa r name true (Some "URInvKin"%string) None = Ok (g, ks, links, names) ->
  exists info t d p, ks = [KI name "world" (List.last links ""%string) info] /\
  (entry info ["kinematic_plugins"; "inv_kin_plugins"; name; "plugins"; "URInvKin"; "config"; "base_link"] (PStr "world") /\
   entry info ["kinematic_plugins"; "inv_kin_plugins"; name; "plugins"; "URInvKin"; "config"; "tip_link"] (PStr t) /\
   entry info ["kinematic_plugins"; "inv_kin_plugins"; name; "plugins"; "URInvKin"; "config"; "params"] d)%string /\
  ur_written d p /\
  forall q q1 q2 q3 q4 q5 q6, assigns q names [q1; q2; q3; q4; q5; q6] ->
  exists f, placed g q "world" t f /\ ((forall x, f x = rotate ez PI (ur_dh p q1 q2 q3 q4 q5 q6 x)) <-> (forall x, act_tool r x = x)).
Proof.
  intros aa r name g ks links names AA W WA X P6 E.
  apply (env_ok aa r name _ None g ks links names (wf_H r W) (wf_P r W)) in E.
  destruct E as (G & _ & info & EI & -> & -> & -> & ->).
  apply info_ok in EI. destruct EI as (d & libs & inv & E1 & E2 & ->).
  destruct (C62_described r vzero X P6) as (p & EP & _).
  pose proof (proj2 (C62_described_iff r p vzero X P6 EP) eq_refl) as SV.
  unfold invkin_info in E1. cbn [String.eqb Ascii.eqb Bool.eqb orb] in E1. rewrite EP in E1. cbn [bind index nth_error] in E1.
  injection E1 as <- <-. cbn [invkin_ur fst getitem plugins assoc String.eqb Ascii.eqb Bool.eqb] in E2. injection E2 as <-.
  assert (EL : List.last ("world"%string :: map (pre name) (graph_links r)) ""%string = pre name (tip_of r)).
  { rewrite <- pre_last. reflexivity. }
  rewrite EL. do 3 eexists. exists p. split; [reflexivity|]. split; [split; [ent|split; ent]|]. split.
  { unfold ur_written. split; [ent|]. split; [ent|]. split; [ent|]. split; [ent|]. split; ent. }
  intros q q1 q2 q3 q4 q5 q6 AS.
  destruct (place_tip aa AA r name q _ W G WA AS) as (f & Pt & Et). exists f. split; [exact Pt|]. split.
  - intros H x. pose proof (H x) as Hx. rewrite Et, SV in Hx. apply (rotate_inj _ _ _ _ unit_ez) in Hx. apply ur_dh_inj in Hx. exact Hx.
  - intros H x. rewrite Et, SV, H. reflexivity.
Qed.

(** The environments exist. *)
Lemma env_exists aa r name s p : wf_robot r -> graphable r ->
  (forall j, In j (moving_joints r ++ fixed_joints r) -> (name ++ "_" ++ j <> "world_to_" ++ name)%string) ->
  (s = "OPWInvKin"%string /\ (exists p0, robot_to_opw_inv_kin_parameters r = Ok p0)) \/ (s = "URInvKin"%string /\ robot_to_ur_inv_kin_parameters r = Ok p) ->
  exists g ks links names, robot_to_tesseract_env aa r name true (Some s) None = Ok (g, ks, links, names).
Proof.
  intros W G F S.
  assert (F' : env_fresh r name).
  { intros C. apply in_map_iff in C. destruct C as (j & C & I). exact (F j I C). }
  assert (K : exists info, kinematics_plugin_info_dict r name (map (pre name) (graph_links r))
        (pre name "base_link" :: map (pre name) (map link_name (seq 1 (List.length (rtype r))))) (Some s) None (Some "world"%string) (Some (pre name (tip_of r)))
      = Ok info).
  { unfold kinematics_plugin_info_dict. cbn [bind fwdkin_kdl]. unfold invkin_info.
    destruct S as [(-> & p0 & E) | (-> & E)]; cbn [String.eqb Ascii.eqb Bool.eqb orb]; rewrite E; cbn [bind index nth_error];
      eexists; reflexivity. }
  destruct K as (info & K). do 4 eexists. apply (env_ok aa r name (Some s) None _ _ _ _ (wf_H r W) (wf_P r W)).
  split; [exact G|]. split; [exact F'|]. exists info. split; [exact K|]. split; [reflexivity|]. split; [reflexivity|]. split; reflexivity.
Qed.
Lemma six_graphable r lo up ve ac : rtype r = [Rotary; Rotary; Rotary; Rotary; Rotary; Rotary] -> rnames r = None ->
  rlower r = Some lo -> rupper r = Some up -> rvel r = Some ve -> racc r = Some ac ->
  List.length lo = 6%nat -> List.length up = 6%nat -> List.length ve = 6%nat -> List.length ac = 6%nat -> graphable r.
Proof.
  intros T N L U V A L1 L2 L3 L4. split.
  - rewrite T. simpl. lia.
  - rewrite T. repeat constructor; left; reflexivity.
  - exists lo, up, ve, ac. rewrite T, L1, L2, L3, L4. simpl. repeat split; auto.
  - unfold moving_joints. rewrite N, map_length, seq_length. reflexivity.
  - unfold moving_joints, fixed_joints. rewrite N, T. cbn [List.length seq map].
    destruct (rflange r), (rRtool r), (rptool r); cbn [app];
      repeat (constructor; [cbn [In]; intuition discriminate|]); constructor.
Qed.
Lemma six_fresh r : rtype r = [Rotary; Rotary; Rotary; Rotary; Rotary; Rotary] -> rnames r = None ->
  forall j, In j (moving_joints r ++ fixed_joints r) -> ("arm" ++ "_" ++ j <> "world_to_" ++ "arm")%string.
Proof. intros _ _ j _ C. discriminate C. Qed.
Lemma flange_SO3 : is_SO3 (of_cols (vneg ez) ey ex).
Proof. split; cbv [of_cols vneg ex ey ez mmul mT I3 det dot cross m00 m01 m02 m10 m11 m12 m20 m21 m22 vx vy vz]; [f_equal; ring|ring]. Qed.
Lemma ur_flange_SO3 : is_SO3 (of_cols ex ez (vneg ey)).
Proof. split; cbv [of_cols vneg ex ey ez mmul mT I3 det dot cross m00 m01 m02 m10 m11 m12 m20 m21 m22 vx vy vz]; [f_equal; ring|ring]. Qed.
Lemma half_SO3 : is_SO3 (M3 (-1) 0 0 0 (-1) 0 0 0 1).
Proof. split; cbv [mmul mT I3 det dot cross m00 m01 m02 m10 m11 m12 m20 m21 m22 vx vy vz]; [f_equal; ring|ring]. Qed.
Lemma opw_demo_aux e : wf_aux (opw_demo e None None).
Proof. split; [split; reflexivity|discriminate|exact flange_SO3|exact Logic.I]. Qed.
Lemma ur_demo_aux H p6 pt : wf_aux (ur_demo H p6 (Some I3) (Some pt)).
Proof. split; [split; discriminate|intros A [= <-]; exact SO3_I|exact ur_flange_SO3|exact half_SO3]. Qed.
Lemma opw_demo_graphable e : graphable (opw_demo e None None).
Proof. eapply six_graphable; reflexivity. Qed.
Lemma ur_demo_graphable H p6 Rt pt : graphable (ur_demo H p6 Rt pt).
Proof. eapply six_graphable; reflexivity. Qed.
Example C74_opw_example : wf_aux (opw_demo ex None None) /\
  exists e, robot_to_tesseract_env (fun A => A) (opw_demo ex None None) "arm" true (Some "OPWInvKin"%string) None = Ok e.
Proof.
  split; [apply opw_demo_aux|].
  destruct (env_exists (fun A => A) (opw_demo ex None None) "arm" "OPWInvKin" (UR 0 0 0 0 0 0)) as (g & ks & links & names & E); eauto.
  - apply opw_demo_wf, unit_ex.
  - apply opw_demo_graphable.
  - apply six_fresh; reflexivity.
  - left. split; auto. destruct (C72_described _ (opw_demo_exact ex None None)) as (p & _ & E & _). eauto.
Qed.
(** C74 is false for UR robots with a tool: the tip link is the tool, the parameters lead to the
    flange. *)
Theorem C74_ur_tool_refuted : exists r g info links names t d p, wf_robot r /\ wf_aux r /\
  robot_to_tesseract_env (fun A => A) r "arm" true (Some "URInvKin"%string) None = Ok (g, [KI "arm" "world" (List.last links ""%string) info], links, names) /\
  (entry info ["kinematic_plugins"; "inv_kin_plugins"; "arm"; "plugins"; "URInvKin"; "config"; "tip_link"] (PStr t) /\
   entry info ["kinematic_plugins"; "inv_kin_plugins"; "arm"; "plugins"; "URInvKin"; "config"; "params"] d)%string /\
  ur_written d p /\ forall q q1 q2 q3 q4 q5 q6, assigns q names [q1; q2; q3; q4; q5; q6] ->
  exists f, placed g q "world" t f /\ ~ forall x, f x = rotate ez PI (ur_dh p q1 q2 q3 q4 q5 q6 x).
Proof.
  set (r := ur_demo (at_rest (vneg ey)) vzero (Some I3) (Some ez)).
  assert (W : wf_robot r) by (apply ur_demo_wf; [reflexivity|apply unit_at_rest, unit_vneg, unit_ey]).
  assert (WA : wf_aux r) by apply ur_demo_aux. assert (X := ur_demo_exact (at_rest (vneg ey)) 0 (Some I3) (Some ez)).
  destruct (C62_described r vzero X eq_refl) as (p0 & EP & _).
  destruct (env_exists (fun A => A) r "arm" "URInvKin" p0) as (g & ks & links & names & E); auto.
  { apply ur_demo_graphable. }
  { apply six_fresh; reflexivity. }
  destruct (C74_ur (fun A => A) r "arm" g ks links names (fun A _ => eq_refl) W WA X eq_refl E)
    as (info & t & d & p & -> & (_ & E1 & E2) & WR & H).
  exists r, g, info, links, names, t, d, p. split; auto. split; auto. split; auto. split; auto. split; auto.
  intros q q1 q2 q3 q4 q5 q6 AS. destruct (H q q1 q2 q3 q4 q5 q6 AS) as (f & P & I). exists f. split; auto.
  intros C. pose proof (proj1 I C vzero) as C0. clear C. rename C0 into C. apply (f_equal vz) in C. revert C.
  unfold r, ur_demo, act_tool. cbn [rRtool rptool]. rewrite mvec_I. cbv [vadd vzero ez vx vy vz]. lra.
Qed.

(* ================= C75 ================= *)
Lemma init_ok aa r name solver tr : wf_robot r -> TesseractRobot_init aa r name solver = Ok tr ->
  exists ks links names, robot_to_tesseract_env aa r name true (Some solver) None = Ok (tr_env tr, ks, links, names) /\
  tr_env tr = env_graph aa r name /\ graphable r /\ names = map (pre name) (moving_joints r) /\
  tr_base tr = "world"%string /\ tr_tip tr = pre name (tip_of r) /\ sg_links (tr_env tr) = "world"%string :: map (pre name) (graph_links r).
Proof.
  intros W E. unfold TesseractRobot_init in E. apply bind_ok_inv in E as ((((g & ks) & links) & names) & E1 & E).
  pose proof E1 as E0. apply (env_ok aa r name _ None g ks links names (wf_H r W) (wf_P r W)) in E1.
  destruct E1 as (G & _ & info & _ & Eg & _ & El & En).
  rewrite El in E. cbn [index nth_error bind] in E. rewrite (index_last_ok _ ""%string) in E by discriminate. cbn [bind] in E.
  injection E as <-. cbn [tr_env tr_base tr_tip]. exists ks, links, names. split; auto. split; auto. split; auto. split; auto. split; auto.
  split; [rewrite <- pre_last; reflexivity|]. rewrite Eg. reflexivity.
Qed.

(** C75.  With a correct table of link poses, fwdkin of the class is fwdkin of the robot. *)
Theorem C75_fwdkin : forall aa r name solver tr, (forall A, is_SO3 A -> aa A = A) -> wf_robot r -> wf_aux r ->
  TesseractRobot_init aa r name solver = Ok tr ->
  forall theta q frames, assigns q (map (fun j => name ++ "_" ++ j)%string (moving_joints r)) theta -> table (tr_env tr) q frames ->
  exists T T', tess_fwdkin tr frames None None = Ok T /\ fwdkin r theta true = Ok T' /\ same_motion T T'.
Proof.
  intros aa r name solver tr AA W WA E theta q frames AS (TB1 & TB2).
  destruct (init_ok aa r name solver tr W E) as (ks & links & names & _ & Eg & G & _ & _ & Et & El).
  assert (Lt : List.length theta = List.length (rtype r)).
  { rewrite <- (gr_names r G), <- (map_length (pre name)). clear -AS. unfold pre. induction AS; simpl; congruence. }
  assert (I : In (tr_tip tr) (sg_links (tr_env tr))).
  { rewrite El, Et. right. rewrite <- pre_last. unfold graph_links. cbn [map]. apply last_in. }
  unfold tess_fwdkin. destruct (frames (tr_tip tr)) as [T|] eqn:F; [|exfalso; exact (TB1 _ I F)].
  destruct (TB2 _ _ F) as (RT & fp & P & EF). destruct (C20_fwdkin_ignore r theta W) as (T' & E' & A'); [lia|].
  exists (isometry3d_to_transform T), T'. split; auto. split; auto. apply same_motion_act. intros x.
  change (act (isometry3d_to_transform T) x) with (act T x). rewrite A', <- EF.
  destruct (place_tip aa AA r name q theta W G WA AS) as (f & Pf & Ef). rewrite Eg, Et in P.
  rewrite (place_same aa r name q _ _ _ P Pf). rewrite Ef. reflexivity.
Qed.

(** C75.  Between any two links of the environment it gives the pose of the second seen from the
    first; links that do not exist are refused. *)
Theorem C75_relative : forall aa r name solver tr, wf_robot r -> TesseractRobot_init aa r name solver = Ok tr ->
  forall q frames b t, table (tr_env tr) q frames ->
  (In b (sg_links (tr_env tr)) -> In t (sg_links (tr_env tr)) -> exists T, tess_fwdkin tr frames (Some b) (Some t) = Ok T /\ rigid T /\
     forall fb ft, placed (tr_env tr) q "world" b fb -> placed (tr_env tr) q "world" t ft -> forall x, ft x = fb (act T x)) /\
  (~ In b (sg_links (tr_env tr)) \/ ~ In t (sg_links (tr_env tr)) -> tess_fwdkin tr frames (Some b) (Some t) = Err IndexError).
Proof.
  intros aa r name solver tr W E q frames b t (TB1 & TB2).
  destruct (init_ok aa r name solver tr W E) as (ks & links & names & _ & Eg & G & _ & _ & _ & El).
  assert (IN : forall l T, frames l = Some T -> In l (sg_links (tr_env tr))).
  { intros l T F. destruct (TB2 l T F) as (_ & fp & P & _). rewrite El. rewrite Eg in P.
    apply (placed_link aa r name q l _ G) in P. destruct P as [-> | P]; [left; reflexivity|right; exact P]. }
  split.
  - intros Ib It. unfold tess_fwdkin.
    destruct (frames t) as [T|] eqn:Ft; [|exfalso; exact (TB1 _ It Ft)].
    destruct (frames b) as [B|] eqn:Fb; [|exfalso; exact (TB1 _ Ib Fb)].
    destruct (TB2 _ _ Ft) as (RT & f1 & PT & ET). destruct (TB2 _ _ Fb) as (RB & f2 & PB & EB).
    eexists. split; [reflexivity|]. split.
    { unfold rigid, isometry3d_to_transform, tmul, tinv. cbn [tR]. apply SO3_mmul; auto. apply SO3_T, RB. }
    intros fb ft Qb Qt x. rewrite Eg in *. rewrite (place_same aa r name q _ _ _ Qb PB), (place_same aa r name q _ _ _ Qt PT), ET, EB.
    change (act (isometry3d_to_transform (tmul (tinv B) T)) x) with (act (tmul (tinv B) T) x).
    rewrite act_tmul. symmetry. apply act_tinv, RB.
  - intros N. unfold tess_fwdkin. destruct (frames t) as [T|] eqn:Ft; [|reflexivity].
    destruct (frames b) as [B|] eqn:Fb; [|reflexivity]. exfalso. destruct N as [N|N]; apply N; eauto.
Qed.

(** C75.  If the library's Jacobian, velocity on top, belongs to the poses of the last link, then
    jacobian of the class is robotjacobian. *)
Theorem C75_jacobian : forall aa r name solver tr, (forall A, is_SO3 A -> aa A = A) -> wf_robot r -> wf_aux r ->
  TesseractRobot_init aa r name solver = Ok tr ->
  forall (f : list R -> transform),
  (forall theta q, assigns q (map (fun j => name ++ "_" ++ j)%string (moving_joints r)) theta -> at_pose (tr_env tr) q (tr_tip tr) (f theta)) ->
  forall theta J, List.length theta = List.length (rtype r) -> velocity_jacobian f theta J ->
  robotjacobian r theta true = Ok (tess_jacobian J).
Proof.
  intros aa r name solver tr AA W WA E f PL theta J L V.
  destruct (init_ok aa r name solver tr W E) as (ks & links & names & _ & Eg & G & _ & _ & Et & El).
  apply (swapped_jacobian r f theta J W WA (gr_plain r G) L); auto.
  intros th Lth. destruct (C20_fwdkin_ignore r th W) as (T & ET & A); [lia|]. exists T. split; auto.
  assert (Q : exists q, assigns q (map (pre name) (moving_joints r)) th).
  { apply assigns_exists; [|rewrite map_length, (gr_names r G); lia].
    apply FinFun.Injective_map_NoDup; [exact (pre_inj name)|]. exact (proj1 (proj1 (nodup_app _ _) (gr_unique r G))). }
  destruct Q as (q & AS). destruct (PL th q AS) as (f1 & P1 & E1). apply same_motion_act. intros x. rewrite A, <- E1.
  destruct (place_tip aa AA r name q th W G WA AS) as (f0 & Pf & Ef). rewrite Eg, Et in P1.
  rewrite (place_same aa r name q _ _ _ P1 Pf), Ef. reflexivity.
Qed.

(** C75.  If the library's solver is sound then every answer of invkin, with the default links, is a
    joint vector that fwdkin of the robot takes to the pose. *)
Theorem C75_invkin : forall aa r name solver tr, (forall A, is_SO3 A -> aa A = A) -> wf_robot r -> wf_aux r ->
  TesseractRobot_init aa r name solver = Ok tr ->
  forall calc pose seed theta, solver_sound (tr_env tr) (map (fun j => name ++ "_" ++ j)%string (moving_joints r)) calc -> rigid pose ->
  In theta (tess_invkin aa tr calc pose seed None None) ->
  exists T, fwdkin r theta true = Ok T /\ same_motion T pose.
Proof.
  intros aa r name solver tr AA W WA E calc pose seed theta SD RP I.
  destruct (init_ok aa r name solver tr W E) as (ks & links & names & _ & Eg & G & _ & Eb & Et & El).
  unfold tess_invkin in I. rewrite Eb, Et in I.
  destruct (SD _ _ _ _ _ I) as (L & S). rewrite map_length, (gr_names r G) in L.
  destruct (C20_fwdkin_ignore r theta W) as (T & ET & A); [lia|]. exists T. split; auto.
  assert (Q : exists q, assigns q (map (pre name) (moving_joints r)) theta).
  { apply assigns_exists; [|rewrite map_length, (gr_names r G); lia].
    apply FinFun.Injective_map_NoDup; [exact (pre_inj name)|]. exact (proj1 (proj1 (nodup_app _ _) (gr_unique r G))). }
  destruct Q as (q & AS). apply same_motion_act. intros x. rewrite A.
  destruct (place_tip aa AA r name q theta W G WA AS) as (f0 & Pf & Ef).
  rewrite <- Eg in Pf. rewrite <- (act_iso aa AA pose x RP).
  rewrite <- (S q (fun x => x) f0 AS (placed_root _ _ _) Pf x), Ef. reflexivity.
Qed.

(** The premises of C75 are met: the class can be made, there is a table for every joint vector,
    a Jacobian of the poses, and a sound solver with an answer. *)
Lemma demo_init : exists tr, TesseractRobot_init (fun A => A) demo "arm" "KDLInvKinChainLMA" = Ok tr.
Proof.
  destruct C61_example as ((((g & ks) & links) & names) & E). unfold TesseractRobot_init.
  assert (E' : robot_to_tesseract_env (fun A => A) demo "arm" true (Some "KDLInvKinChainLMA"%string) None = Ok (g, ks, links, names)) by exact E.
  rewrite E'. cbn [bind]. destruct (C61_environment _ demo "arm" None None g ks links names demo_wf E) as (-> & _).
  eexists. reflexivity.
Qed.
Lemma step_pose g q j T : at_pose g q (tj_parent j) T -> In j (sg_joints g) -> rigid T -> rigid (tj_origin j) ->
  (forall h, tj_axis j = Some h -> unit3 h) -> exists T', rigid T' /\ at_pose g q (tj_child j) T'.
Proof.
  intros (f & P & E) I RT RO U.
  assert (M : exists M, rigid M /\ forall x, act M x = joint_place j (q (tj_name j)) x).
  { unfold joint_place. destruct (tj_kind j).
    - destruct (tj_axis j) as [h|]; [|exists (tj_origin j); auto].
      exists (tmul (tj_origin j) (Tf (rot h (q (tj_name j))) vzero None None)). split.
      + unfold rigid, tmul. cbn [tR]. apply SO3_mmul; auto. apply rot_SO3, U. reflexivity.
      + intros x. rewrite act_tmul. f_equal. unfold act. cbn [tR tp]. rewrite rot_rotate by (apply U; reflexivity).
        generalize (rotate h (q (tj_name j)) x). intros v. la_ring.
    - destruct (tj_axis j) as [h|]; [|exists (tj_origin j); auto].
      exists (tmul (tj_origin j) (Tf I3 (vscale (q (tj_name j)) h) None None)). split.
      + unfold rigid, tmul. cbn [tR]. apply SO3_mmul; auto. exact SO3_I.
      + intros x. rewrite act_tmul. f_equal. unfold act. cbn [tR tp]. rewrite mvec_I. la_ring.
    - exists (tj_origin j). auto. }
  destruct M as (M & RM & EM). exists (tmul T M). split.
  - unfold rigid, tmul. cbn [tR]. apply SO3_mmul; auto.
  - exists (fun x => f (joint_place j (q (tj_name j)) x)). split; [constructor; auto|].
    intros x. rewrite E, act_tmul, EM. reflexivity.
Qed.
Lemma row_poses g q js : forall a b T, in_row js a b -> incl js (sg_joints g) -> rigid T -> at_pose g q a T ->
  (forall j, In j js -> rigid (tj_origin j) /\ forall h, tj_axis j = Some h -> unit3 h) ->
  forall l, In l (map tj_child js) -> exists T', rigid T' /\ at_pose g q l T'.
Proof.
  induction js as [|j js IH]; intros a b T RW IC RT AP J l I; [destruct I|].
  cbn [in_row] in RW. destruct RW as (E & RW). destruct (J j (or_introl eq_refl)) as (RO & U). subst a.
  destruct (step_pose g q j T AP (IC j (or_introl eq_refl)) RT RO U) as (T1 & R1 & A1).
  destruct I as [<- | I]; [exists T1; auto|].
  apply (IH _ _ T1 RW (fun x H => IC x (or_intror H)) R1 A1 (fun x H => J x (or_intror H)) l I).
Qed.
Lemma choose_table (Q : string -> transform -> Prop) links : (forall l, In l links -> exists T, Q l T) ->
  exists frames, (forall l, In l links -> frames l <> None) /\ forall l T, frames l = Some T -> Q l T.
Proof.
  induction links as [|a links IH]; intros H.
  - exists (fun _ => None). split; [intros l []|discriminate].
  - destruct IH as (fr & F1 & F2); [intros l I; apply H; right; exact I|]. destruct (H a (or_introl eq_refl)) as (T & QT).
    exists (fun l => if String.eqb l a then Some T else fr l). split.
    + intros l [<- | I]; [rewrite String.eqb_refl; discriminate|]. destruct (String.eqb l a); [discriminate|auto].
    + intros l T'. destruct (String.eqb_spec l a) as [-> | N]; [intros [= <-]; exact QT|apply F2].
Qed.
Lemma all_joints_fit aa r : (forall A, is_SO3 A -> aa A = A) -> wf_robot r -> wf_aux r ->
  forall j, In j (all_joints aa r) -> rigid (tj_origin j) /\ forall h, tj_axis j = Some h -> unit3 h.
Proof.
  intros AA W WA j I. unfold all_joints in I. apply in_app_or in I. destruct I as [I | I].
  - unfold Jk in I. apply in_map_iff in I. destruct I as (i & <- & I). apply in_seq in I. split.
    + unfold rigid. cbn [jt tj_origin transform_to_isometry3d tR]. rewrite AA; exact SO3_I.
    + cbn [jt tj_axis]. intros h [= <-]. pose proof (wf_unit r W) as U. rewrite Forall_forall in U. apply U, nth_In.
      rewrite (wf_H r W). lia.
  - apply in_app_or in I. destruct I as [[<- | []] | I].
    { split; [|discriminate]. unfold rigid. cbn [tip_joint tj_origin transform_to_isometry3d tR]. rewrite AA; exact SO3_I. }
    apply in_app_or in I. destruct I as [I | I].
    + unfold flange_joints in I. destruct (rflange r) as [T|] eqn:F; [|destruct I]. destruct I as [<- | []].
      pose proof (wf_flange r WA) as RF. rewrite F in RF. cbn [rigid_opt] in RF. split; [|discriminate].
      unfold rigid. cbn [tj_origin transform_to_isometry3d tR]. rewrite AA; exact RF.
    + unfold tool_joints in I. destruct (rRtool r) as [A|] eqn:TA; [|destruct I]. destruct (rptool r) as [p|]; [|destruct I].
      destruct I as [<- | []]. split; [|discriminate]. unfold rigid. cbn [tj_origin transform_to_isometry3d tR].
      rewrite AA; exact (wf_tool r WA A TA).
Qed.

Lemma env_pose aa r name q : (forall A, is_SO3 A -> aa A = A) -> wf_robot r -> wf_aux r -> graphable r ->
  forall l, l = "world"%string \/ In l (map (pre name) (graph_links r)) -> exists T, rigid T /\ at_pose (env_graph aa r name) q l T.
Proof.
  intros AA W WA G l I.
  assert (RW : in_row (get_robot_world_to_base_joint aa r name :: map (prefix_joint (name ++ "_")) (all_joints aa r)) "world" (pre name (tip_of r))).
  { split; [reflexivity|]. cbn [get_robot_world_to_base_joint tj_child].
    pose proof (in_row_prefix (name ++ "_") (all_joints aa r) "base_link" (tip_of r) (in_row_all aa r (gr_some r G))) as I0.
    rewrite !append_assoc in I0. exact I0. }
  assert (A0 : at_pose (env_graph aa r name) q "world" (Tf I3 vzero None None)).
  { exists (fun x => x). split; [constructor|]. intros x. unfold act. cbn [tR tp]. rewrite mvec_I. la_ring. }
  destruct I as [-> | I]; [exists (Tf I3 vzero None None); split; [exact SO3_I|exact A0]|].
  apply (row_poses (env_graph aa r name) q _ _ _ (Tf I3 vzero None None) RW); [|exact SO3_I|exact A0| |].
  - intros x [<- | J]; unfold env_graph; cbn [sg_joints]; apply in_or_app; [right; left; reflexivity|left; exact J].
  - intros j [<- | J].
    + cbn [get_robot_world_to_base_joint tj_origin tj_axis]. split; [|discriminate].
      pose proof (wf_base r WA) as RB. destruct (rbase r) as [T|]; cbn [rigid_opt] in RB; unfold rigid; cbn [transform_to_isometry3d tR]; [rewrite AA; exact RB|].
      try (rewrite AA; exact SO3_I); exact SO3_I.
    + apply in_map_iff in J. destruct J as (j0 & <- & J). cbn [prefix_joint tj_origin tj_axis]. exact (all_joints_fit aa r AA W WA j0 J).
  - cbn [map]. cbn [get_robot_world_to_base_joint tj_child]. unfold graph_links in I. cbn [map] in I.
    destruct I as [<- | I]; [left; reflexivity|]. right.
    rewrite map_map. cbn [prefix_joint tj_child]. rewrite <- (map_map tj_child (fun s => (name ++ "_") ++ s)%string).
    pose proof (all_children aa r) as AC. unfold graph_links in AC. injection AC as AC. rewrite AC.
    apply in_map_iff in I. destruct I as (s & <- & I). apply in_map_iff. exists s. split; [apply append_assoc|exact I].
Qed.

(** C75.  Every link has a pose, at all joint values: tables exist. *)
Theorem C75_table : forall aa r name solver tr, (forall A, is_SO3 A -> aa A = A) -> wf_robot r -> wf_aux r ->
  TesseractRobot_init aa r name solver = Ok tr -> forall q, exists frames, table (tr_env tr) q frames.
Proof.
  intros aa r name solver tr AA W WA E q.
  destruct (init_ok aa r name solver tr W E) as (ks & links & names & _ & Eg & G & _ & _ & _ & El).
  apply (choose_table (fun l T => rigid T /\ at_pose (tr_env tr) q l T)). intros l I. rewrite El in I. rewrite Eg.
  apply env_pose; auto. destruct I as [<- | I]; auto.
Qed.

(** The premises of C75 are met by the demo robot. *)
Example C75_example : exists tr, TesseractRobot_init (fun A => A) demo "arm" "KDLInvKinChainLMA" = Ok tr /\
  exists q frames, assigns q ["arm_a"; "arm_b"]%string [1; 1/2] /\ table (tr_env tr) q frames.
Proof.
  destruct demo_init as (tr & E). exists tr. split; auto.
  set (q := fun n => if String.eqb n "arm_a" then 1 else 1/2).
  destruct (C75_table _ demo "arm" _ tr (fun A _ => eq_refl) demo_wf demo_aux E q) as (frames & T).
  exists q, frames. split; auto. repeat constructor.
Qed.
Definition demo_pose (theta : list R) : transform := match fwdkin demo theta true with Ok T => T | Err _ => Tf I3 vzero None None end.
Lemma demo_at tr theta q : TesseractRobot_init (fun A => A) demo "arm" "KDLInvKinChainLMA" = Ok tr ->
  assigns q ["arm_a"; "arm_b"]%string theta -> at_pose (tr_env tr) q (tr_tip tr) (demo_pose theta).
Proof.
  intros E AS. destruct (init_ok _ demo _ _ tr demo_wf E) as (ks & links & names & _ & Eg & G & _ & _ & Et & El).
  destruct (place_tip (fun A => A) (fun A _ => eq_refl) demo "arm" q theta demo_wf G demo_aux AS) as (f & P & Ef).
  exists f. rewrite Eg, Et. split; [exact P|]. intros x. rewrite Ef.
  assert (L : List.length theta = 2%nat) by (clear -AS; inversion AS as [|? ? ? ? _ A1]; inversion A1 as [|? ? ? ? _ A2]; inversion A2; reflexivity).
  destruct (C20_fwdkin_ignore demo theta demo_wf) as (T & ET & A); [simpl; lia|]. unfold demo_pose. rewrite ET, A. reflexivity.
Qed.
(** A Jacobian of these poses: robotjacobian with its rows swapped back. *)
Example C75_jacobian_example : exists J, velocity_jacobian demo_pose [1; 1/2] J.
Proof.
  destruct (C25_columns demo [1; 1/2] demo_wf) as (Jr & EJ & LJ); [simpl; lia|repeat constructor; discriminate|].
  exists (tess_jacobian Jr). split; [unfold tess_jacobian; rewrite map_length, LJ; reflexivity|].
  intros i c Ec. unfold tess_jacobian in Ec. rewrite nth_error_map in Ec. destruct (nth_error Jr i) as [a|] eqn:Ea; [|discriminate].
  injection Ec as <-. cbn [hi3 lo3].
  destruct (C24_jacobian_derivative demo (curve [1; 1/2] i) (unit_at [1; 1/2] i) 0 demo_wf demo_aux (gr_plain demo demo_graphable)) as (J1 & T & E1 & FT & D1 & D2).
  { rewrite curve_length. simpl. lia. }
  { apply curve_deriv. }
  rewrite curve_bump, bump_0, EJ in E1. injection E1 as <-. rewrite (jac_unit Jr [1; 1/2] i a) in D1, D2 by (auto; rewrite LJ; reflexivity).
  assert (ET : forall s, T s = demo_pose (bump [1; 1/2] i s)).
  { intros s. unfold demo_pose. rewrite <- curve_bump, FT. reflexivity. }
  split.
  - apply (vderiv_ext (fun s => tp (T s))); [intros s; rewrite ET; reflexivity|exact D1].
  - pose proof (ET 0) as ET0. rewrite bump_0 in ET0. rewrite <- ET0.
    apply (mderiv_ext (fun s => tR (T s))); [intros s; rewrite ET; reflexivity|exact D2].
Qed.
(** A sound solver with an answer. *)
Lemma vec_dec (u v : vec3) : {u = v} + {u <> v}.
Proof. repeat decide equality; apply Req_EM_T. Qed.
Lemma mat_dec (A B : mat3) : {A = B} + {A <> B}.
Proof. repeat decide equality; apply Req_EM_T. Qed.
Example C75_invkin_example : exists tr calc, TesseractRobot_init (fun A => A) demo "arm" "KDLInvKinChainLMA" = Ok tr /\
  solver_sound (tr_env tr) ["arm_a"; "arm_b"]%string calc /\ rigid (demo_pose [1; 1/2]) /\
  In [1; 1/2] (tess_invkin (fun A => A) tr calc (demo_pose [1; 1/2]) [0; 0] None None).
Proof.
  destruct demo_init as (tr & E). exists tr.
  destruct (init_ok _ demo _ _ tr demo_wf E) as (ks & links & names & _ & Eg & G & _ & Eb & Et & El).
  exists (fun T b t seed => if (string_dec b "world") then if (string_dec t (tr_tip tr)) then
     if mat_dec (tR T) (tR (demo_pose [1; 1/2])) then if vec_dec (tp T) (tp (demo_pose [1; 1/2])) then [[1; 1/2]] else [] else [] else [] else []).
  split; auto. split; [|split].
  - intros T b t seed theta I. destruct (string_dec b "world") as [-> |]; [|destruct I]. destruct (string_dec t (tr_tip tr)) as [-> |]; [|destruct I].
    destruct (mat_dec _ _) as [ER|]; [|destruct I]. destruct (vec_dec _ _) as [EP|]; [|destruct I]. destruct I as [<- | []].
    split; auto. intros q fb ft AS Pb Pt x.
    destruct (demo_at tr [1; 1/2] q E AS) as (f & P & Ef). rewrite Eg in *.
    rewrite (place_same _ demo "arm" q _ _ _ Pt P), (place_same _ demo "arm" q _ _ _ Pb (placed_root _ _ _)), Ef.
    unfold act. rewrite ER, EP. reflexivity.
  - unfold demo_pose. destruct (fwdkin demo [1; 1/2] true) as [T|] eqn:F; [|exact SO3_I]. exact (C21_fwdkin_rigid demo _ true T demo_wf demo_aux F).
  - unfold tess_invkin. rewrite Eb. destruct (string_dec "world" "world") as [_|N]; [|exfalso; apply N; reflexivity].
    destruct (string_dec (tr_tip tr) (tr_tip tr)) as [_|N]; [|exfalso; apply N; reflexivity].
    unfold transform_to_isometry3d. cbn [tR tp].
    destruct (mat_dec _ _) as [_|N]; [|exfalso; apply N; reflexivity]. destruct (vec_dec _ _) as [_|N]; [|exfalso; apply N; reflexivity].
    left. reflexivity.
Qed.

Print Assumptions C62_described.
Print Assumptions C62_described_iff.
Print Assumptions C62_urdf_axes.
Print Assumptions C62_mirrored.
Print Assumptions C62_refuted.
Print Assumptions C72_described.
Print Assumptions C72_upwards.
Print Assumptions C72_upwards_none.
Print Assumptions C72_refuted.
Print Assumptions C73_solver.
Print Assumptions C73_unknown.
Print Assumptions C73_unsuitable.
Print Assumptions C73_override.
Print Assumptions C73_string.
Print Assumptions C73_string_refuted.
Print Assumptions C74_opw.
Print Assumptions C74_ur.
Print Assumptions C74_ur_tool_refuted.
Print Assumptions C75_fwdkin.
Print Assumptions C75_relative.
Print Assumptions C75_jacobian.
Print Assumptions C75_invkin.
Print Assumptions C75_table.
