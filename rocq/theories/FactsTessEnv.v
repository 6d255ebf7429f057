(** Where the links of the environment are placed, and the plugin information. *)
From Coq Require Import Reals ZArith String List Bool Lia Lra.
From Verif Require Import LinAlg RealAux Py FactsReal FactsLinAlg SpecRot ModelRot FactsRot FactsDeriv ModelTransform ModelRobot ModelKin SpecKin FactsKin FactsJac PropKin.
From Verif Require Import ModelTess SpecTess FactsTess FactsTessIk.
Import ListNotations.
Open Scope R_scope.

(** the robot without its tool *)
Definition bare (r : robot) : robot :=
  Rb (rH r) (rP r) (rtype r) (rlower r) (rupper r) (rvel r) (racc r) (rM r) None None (rnames r) (rroot r)
     (rtip r) (rflange r) (rbase r).
Lemma bare_joints aa r : all_joints aa r = all_joints aa (bare r) ++ tool_joints aa r.
Proof.
  unfold all_joints. change (tool_joints aa (bare r)) with (@nil tjoint). rewrite app_nil_r.
  change (Jk aa (bare r) (List.length (rtype (bare r)))) with (Jk aa r (List.length (rtype r))).
  change (tip_joint aa (bare r)) with (tip_joint aa r). change (flange_joints aa (bare r)) with (flange_joints aa r).
  rewrite <- !app_assoc. reflexivity.
Qed.
Lemma bare_aux r : wf_aux r -> wf_aux (bare r).
Proof. intros [A B C D]. split; auto; [split; reflexivity|discriminate]. Qed.

Section Place.
Context (aa : mat3 -> mat3) (AA : forall A, is_SO3 A -> aa A = A).

Lemma place_row r name q js l : graphable r -> incl js (all_joints aa r) -> in_row js "base_link" l -> wf_aux r ->
  exists f, placed (env_graph aa r name) q "world" (pre name l) f /\
    (forall x, f x = act_opt (rbase r) (walk (fun n => q ((name ++ "_") ++ n)%string) js x)).
Proof.
  intros G IJ RW WA.
  destruct (placed_walk (env_graph aa r name) q "world"
    (get_robot_world_to_base_joint aa r name :: map (prefix_joint (name ++ "_")) js) "world" (pre name l) (fun x => x))
    as (f0 & P0 & E0).
  { intros x [<-|I]; unfold env_graph; cbn [sg_joints]; apply in_or_app; [right; left; reflexivity|left].
    apply in_map_iff in I. destruct I as (j & <- & I). apply in_map, IJ, I. }
  { split; [reflexivity|]. cbn [get_robot_world_to_base_joint tj_child].
    pose proof (in_row_prefix (name ++ "_") js "base_link" l RW) as I. rewrite !append_assoc in I. exact I. }
  { constructor. }
  exists f0. split; auto. intros x. rewrite E0. cbn [walk].
  rewrite (base_walk aa AA) by apply (wf_base r WA). rewrite walk_prefix. reflexivity.
Qed.

Lemma place_base r name q : graphable r -> wf_aux r ->
  exists f, placed (env_graph aa r name) q "world" (pre name "base_link") f /\ forall x, f x = act_opt (rbase r) x.
Proof. intros G WA. apply (place_row r name q [] "base_link" G); [intros x []|reflexivity|exact WA]. Qed.

Lemma place_flange r name q theta : wf_robot r -> graphable r -> wf_aux r -> assigns q (map (pre name) (moving_joints r)) theta ->
  exists f, placed (env_graph aa r name) q "world" (pre name (tool_parent r)) f /\ forall x, f x = world_flange r theta x.
Proof.
  intros W G WA AS.
  destruct (place_row r name q (all_joints aa (bare r)) (tool_parent r) G) as (f & P & E).
  { rewrite (bare_joints aa r). intros x I. apply in_or_app. left. exact I. }
  { apply (in_row_all aa (bare r)), (gr_some r G). }
  { exact WA. }
  exists f. split; auto. intros x. rewrite E. unfold world_flange. f_equal.
  apply (walk_all aa AA (bare r) _ theta x (wf_H r W) (wf_P r W) (bare_aux r WA) (gr_plain r G)); [|apply (gr_names r G)].
  apply (assigns_pre q name), AS.
Qed.

Lemma place_tip r name q theta : wf_robot r -> graphable r -> wf_aux r -> assigns q (map (pre name) (moving_joints r)) theta ->
  exists f, placed (env_graph aa r name) q "world" (pre name (tip_of r)) f /\ forall x, f x = world_flange r theta (act_tool r x).
Proof.
  intros W G WA AS.
  destruct (place_row r name q (all_joints aa r) (tip_of r) G) as (f & P & E).
  { intros x I. exact I. }
  { apply (in_row_all aa r), (gr_some r G). }
  { exact WA. }
  exists f. split; auto. intros x. rewrite E. unfold world_flange. f_equal.
  apply (walk_all aa AA r _ theta x (wf_H r W) (wf_P r W) WA (gr_plain r G)); [|apply (gr_names r G)].
  apply (assigns_pre q name), AS.
Qed.

Lemma place_same r name q l f f' : placed (env_graph aa r name) q "world" l f -> placed (env_graph aa r name) q "world" l f' ->
  forall x, f x = f' x.
Proof. intros P P'. destruct (env_unique aa r name) as (N1 & N2). exact (placed_unique _ q "world" N1 N2 _ _ P _ P'). Qed.

(** every placed link is the world or a link of the robot *)
Lemma placed_link r name q l f : graphable r -> placed (env_graph aa r name) q "world" l f -> l = "world"%string \/ In l (map (pre name) (graph_links r)).
Proof.
  intros G P. destruct P as [|j f I P]; auto. right. apply (in_map tj_child) in I. rewrite env_children in I.
  apply in_app_or in I. destruct I as [I|[<-|[]]]; [|apply in_map; left; reflexivity].
  apply in_map_iff in I. destruct I as (s & <- & I). apply in_map. unfold graph_links in *. cbn [tl] in I. right. exact I.
Qed.
End Place.

(** a pose acting like the walk *)
Lemma act_same A B : rigid A -> (forall x, act A x = act B x) -> same_motion A B.
Proof. intros _ E. apply same_motion_act. exact E. Qed.

(* ---------- the plugin dict ---------- *)
Lemma info_ok r name links clinks solver ov base tip info :
  kinematics_plugin_info_dict r name links clinks solver ov (Some base) (Some tip) = Ok info ->
  exists d libs inv, invkin_info r name clinks solver ov base tip = Ok (d, libs) /\ getitem d "inv_kin_plugins" = Ok inv /\
  info = PDict [("kinematic_plugins",
              PDict [("search_libraries", PList (map PStr (nodup string_dec libs)));
                     ("fwd_kin_plugins", PDict [(name, PDict [("default", PStr "KDLFwdKinChain");
                        ("plugins", PDict [("KDLFwdKinChain", plugin "KDLFwdKinChainFactory" (base_tip base tip))])])]);
                     ("inv_kin_plugins", inv)])]%string.
Proof.
  unfold kinematics_plugin_info_dict. cbn [bind fwdkin_kdl]. intros E. apply bind_ok_inv in E as ((d & libs) & E1 & E).
  exists d, libs. cbn [fst snd getitem plugins assoc String.eqb Ascii.eqb Bool.eqb bind app] in E.
  apply bind_ok_inv in E as (inv & E2 & E). exists inv. split; auto. split; auto. injection E as <-. reflexivity.
Qed.

(* ---------- the Jacobian ---------- *)
Fixpoint curve (theta : list R) (i : nat) : list (R -> R) :=
  match theta, i with
  | [], _ => []
  | t :: theta', O => (fun s => t + s) :: map (fun a => fun _ => a) theta'
  | t :: theta', S i' => (fun _ => t) :: curve theta' i'
  end.
Fixpoint unit_at (theta : list R) (i : nat) : list R :=
  match theta, i with
  | [], _ => []
  | t :: theta', O => 1 :: map (fun _ => 0) theta'
  | t :: theta', S i' => 0 :: unit_at theta' i'
  end.
Lemma const_time theta s : at_time (map (fun a => fun _ => a) theta) s = theta.
Proof. unfold at_time. rewrite map_map, map_id. reflexivity. Qed.
Lemma curve_bump theta : forall i s, at_time (curve theta i) s = bump theta i s.
Proof.
  induction theta as [|t theta IH]; intros [|i] s; auto.
  - cbn [curve bump]. change (at_time ((fun s => t + s) :: map (fun a => fun _ => a) theta) s) with ((t + s) :: at_time (map (fun a => fun _ => a) theta) s).
    rewrite const_time. reflexivity.
  - cbn [curve bump]. rewrite <- IH. reflexivity.
Qed.
Lemma bump_0 theta : forall i, bump theta i 0 = theta.
Proof. induction theta as [|t theta IH]; intros [|i]; cbn [bump]; auto; [f_equal; ring|f_equal; auto]. Qed.
Lemma curve_length theta : forall i, List.length (curve theta i) = List.length theta.
Proof. induction theta as [|t theta IH]; intros [|i]; simpl; auto. rewrite map_length. reflexivity. Qed.
Lemma curve_deriv theta : forall i, Forall2 (fun f d => derivable_pt_lim f 0 d) (curve theta i) (unit_at theta i).
Proof.
  induction theta as [|t theta IH]; intros [|i]; cbn [curve unit_at]; auto; constructor; auto.
  - replace 1 with (0 + 1) by ring. apply (derivable_pt_lim_plus (fun _ => t) (fun s => s)); [apply derivable_pt_lim_const|apply derivable_pt_lim_id].
  - clear. induction theta; cbn [map]; constructor; auto. apply derivable_pt_lim_const.
  - apply derivable_pt_lim_const.
Qed.
Lemma jac_zero J : forall theta : list R, jac_apply J (map (fun _ => 0) theta) = V6 vzero vzero.
Proof.
  induction J as [|c J IH]; intros [|t theta]; cbn [map jac_apply]; auto. rewrite IH. cbn [hi3 lo3].
  destruct (hi3 c) as [a1 a2 a3], (lo3 c) as [b1 b2 b3]. cbv [vscale vadd vzero vx vy vz]. f_equal; f_equal; ring.
Qed.
Lemma jac_unit J : forall theta i c, List.length J = List.length theta -> nth_error J i = Some c -> jac_apply J (unit_at theta i) = c.
Proof.
  induction J as [|d J IH]; intros [|t theta] [|i] c L E; try discriminate; cbn [unit_at jac_apply].
  - injection E as <-. rewrite jac_zero. cbn [hi3 lo3]. destruct d as [[a1 a2 a3] [b1 b2 b3]]. cbv [hi3 lo3 vscale vadd vzero vx vy vz]. f_equal; f_equal; ring.
  - rewrite (IH theta i c); auto. destruct (hi3 d) as [a1 a2 a3], (lo3 d) as [b1 b2 b3]. destruct c as [[c1 c2 c3] [c4 c5 c6]].
    cbv [hi3 lo3 vscale vadd vzero vx vy vz]. f_equal; f_equal; ring.
Qed.
Lemma vderiv_unique f t d e : vderiv f t d -> vderiv f t e -> d = e.
Proof.
  intros (A & B & C) (A' & B' & C'). destruct d as [d1 d2 d3], e as [e1 e2 e3]. cbn [vx vy vz] in *.
  f_equal; eapply uniqueness_limite; eassumption.
Qed.
Lemma mderiv_unique f t d e : mderiv f t d -> mderiv f t e -> d = e.
Proof.
  intros ((A1 & A2 & A3) & (B1 & B2 & B3) & (C1 & C2 & C3)) ((A1' & A2' & A3') & (B1' & B2' & B3') & (C1' & C2' & C3')).
  destruct d as [d00 d01 d02 d10 d11 d12 d20 d21 d22], e as [e00 e01 e02 e10 e11 e12 e20 e21 e22]. cbn [m00 m01 m02 m10 m11 m12 m20 m21 m22] in *.
  f_equal; eapply uniqueness_limite; eassumption.
Qed.
Lemma hat_unique u v A : is_SO3 A -> mmul (cross_matrix u) A = mmul (cross_matrix v) A -> u = v.
Proof.
  intros S E. apply (f_equal (fun M => mmul M (mT A))) in E. rewrite !mmul_assoc in E.
  rewrite (SO3_mul_T A S), !mmul_I_r in E. destruct u as [u1 u2 u3], v as [v1 v2 v3].
  unfold cross_matrix in E. cbn [vx vy vz] in E. injection E. intros. f_equal; lra.
Qed.
Lemma nth_error_ext {A} (l l' : list A) : List.length l = List.length l' ->
  (forall i a b, nth_error l i = Some a -> nth_error l' i = Some b -> a = b) -> l = l'.
Proof.
  revert l'. induction l as [|x l IH]; intros [|y l'] L H; try discriminate; auto. f_equal.
  - apply (H 0%nat); reflexivity.
  - apply IH; [simpl in L; lia|]. intros i a b Ea Eb. apply (H (S i)); assumption.
Qed.

(** the library's Jacobian, rows swapped, is robotjacobian *)
Lemma swapped_jacobian r f theta J : wf_robot r -> wf_aux r -> Forall plain_type (rtype r) ->
  List.length theta = List.length (rtype r) ->
  (forall th, List.length th = List.length (rtype r) -> exists T, fwdkin r th true = Ok T /\ same_motion T (f th)) ->
  velocity_jacobian f theta J -> robotjacobian r theta true = Ok (tess_jacobian J).
Proof.
  intros W WA PT L F (LJ & V).
  assert (X : exists Jr, robotjacobian r theta true = Ok Jr /\ List.length Jr = List.length (rtype r)).
  { apply C25_columns; auto; [lia|]. revert PT. apply Forall_impl. intros j [-> | ->]; discriminate. }
  destruct X as (Jr & EJ & LR). rewrite EJ. f_equal. apply nth_error_ext; [unfold tess_jacobian; rewrite map_length; congruence|].
  intros i a b Ea Eb. unfold tess_jacobian in Eb. rewrite nth_error_map in Eb.
  destruct (nth_error J i) as [c|] eqn:Ec; [|discriminate]. injection Eb as <-.
  destruct (C24_jacobian_derivative r (curve theta i) (unit_at theta i) 0 W WA PT) as (J1 & T & E1 & FT & D1 & D2).
  { rewrite curve_length. lia. }
  { apply curve_deriv. }
  rewrite curve_bump, bump_0, EJ in E1. injection E1 as <-. rewrite (jac_unit Jr theta i a) in D1, D2 by congruence.
  assert (ET : forall s, same_motion (T s) (f (bump theta i s))).
  { intros s. destruct (F (bump theta i s)) as (T' & E' & S).
    - rewrite <- curve_bump. unfold at_time. rewrite map_length, curve_length. exact L.
    - rewrite <- curve_bump in E'. rewrite FT in E'. injection E' as <-. exact S. }
  destruct (V i c Ec) as (V1 & V2).
  assert (RT : is_SO3 (tR (f theta))).
  { destruct (F theta L) as (T' & E' & (S & _)). rewrite <- S. exact (C21_fwdkin_rigid r theta true T' W WA E'). }
  destruct a as [ah al], c as [ch cl]. cbn [hi3 lo3] in *. f_equal.
  - apply (hat_unique _ _ (tR (f theta)) RT). apply (mderiv_unique (fun s => tR (T s)) 0).
    + pose proof (ET 0) as (S & _). rewrite bump_0 in S. rewrite <- S. exact D2.
    + apply (mderiv_ext (fun s => tR (f (bump theta i s)))); [intros s; symmetry; apply ET|exact V2].
  - apply (vderiv_unique (fun s => tp (T s)) 0); [exact D1|].
    apply (vderiv_ext (fun s => tp (f (bump theta i s)))); [intros s; symmetry; apply ET|exact V1].
Qed.

Lemma last_in {A} (l : list A) d : forall a, In (List.last (a :: l) d) (a :: l).
Proof. induction l as [|b l IH]; intros a; [left; reflexivity|]. right. apply (IH b). Qed.

Lemma assigns_exists names : NoDup names -> forall theta, List.length names = List.length theta -> exists q, assigns q names theta.
Proof.
  induction names as [|n names IH]; intros N [|t theta] L; try discriminate.
  - exists (fun _ => 0). constructor.
  - apply NoDup_cons_iff in N as (Nn & N). destruct (IH N theta) as (q & A); [simpl in L; lia|].
    exists (fun m => if String.eqb m n then t else q m). constructor; [rewrite String.eqb_refl; reflexivity|].
    clear -A Nn. induction A as [|m u names theta E A IH]; constructor.
    + destruct (String.eqb_spec m n) as [-> |]; auto. exfalso. apply Nn. left. reflexivity.
    + apply IH. intros I. apply Nn. right. exact I.
Qed.
