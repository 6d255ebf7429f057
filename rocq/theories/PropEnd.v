(** Property C96: from a file to Tesseract and to the inverse kinematics. *)
From Coq Require Import Reals ZArith String List Permutation Bool Lra Lia.
From Verif Require Import LinAlg RealAux Py FactsReal FactsLinAlg ModelRot SpecRot FactsRot ModelTransform ModelRobot
  ModelKin SpecKin FactsKin FactsJac PropKin SpecSub ModelInvkin SpecInvkin FactsInvkin PropInvkin PropRobot6.
From Verif Require Import ModelTess SpecTess FactsTess FactsTessIk FactsTessEnv PropTess PropTessIk.
From Verif Require Import ModelRR SpecRR FactsRR PropRR.
From Verif Require Import ModelUrdf SpecUrdf FactsUrdf PropUrdf SpecEnd.
Import ListNotations.
Open Scope R_scope.

Lemma all_limits_len f js l : all_limits f js l -> List.length l = List.length js.
Proof. intros H. induction H; simpl; congruence. Qed.
Lemma with_acc_wf r a : wf_robot r -> wf_robot (with_acc r a).
Proof. intros [A B C D E]. constructor; auto. Qed.
Lemma with_acc_aux r a : wf_aux r -> wf_aux (with_acc r a).
Proof. intros [A B C D]. constructor; auto. Qed.

Lemma Forall2_len {A B} {P : A -> B -> Prop} {l l'} : Forall2 P l l' -> List.length l = List.length l'.
Proof. intros H. induction H; simpl; congruence. Qed.
Lemma path_prefix u a b js : path u a b js -> forall l1 j l2, js = l1 ++ j :: l2 -> path u a (j_parent j) l1.
Proof.
  intros H. induction H as [|k js Hp IH Ik Nk]; intros l1 j l2 E; [destruct l1; discriminate|].
  destruct (@exists_last _ (j :: l2) ltac:(discriminate)) as (l3 & z & Ez). rewrite Ez, app_assoc in E. apply app_inj_tail in E. destruct E as (E & <-).
  destruct l3 as [|y l3].
  - injection Ez as -> ->. rewrite app_nil_r in E. subst. exact Hp.
  - injection Ez as <- ->. apply (IH l1 j l3 E).
Qed.
Lemma path_names u a b js : tidy u -> path u a b js -> NoDup (map j_name js).
Proof.
  intros T H. induction H as [|k js Hp IH Ik Nk]; [constructor|]. rewrite map_app. apply (Permutation_NoDup (Permutation_app_comm [j_name k] (map j_name js))). simpl. constructor; [|exact IH].
  intros I. apply in_map_iff in I. destruct I as (k' & En & I). assert (E : [k'] = [k]).
  { apply (map_name_inj u); auto; [| |simpl; congruence].
    - intros j [<-|[]]. apply (path_in _ _ _ _ Hp), I.
    - intros j [<-|[]]. exact Ik. }
  injection E as ->. apply in_split in I. destruct I as (l1 & l2 & E). pose proof (path_prefix _ _ _ _ Hp l1 k l2 E) as P1.
  pose proof (path_unique _ _ _ _ _ T P1 Hp) as E2. rewrite E2 in E at 1. apply (f_equal (@List.length _)) in E. rewrite app_length in E. simpl in E. lia.
Qed.

(** Robots loaded from URDF have no acceleration limits, so they are always refused. *)
Theorem C96_urdf_refused : forall u ro to r eff, tidy u -> robot_from_urdf u ro to = Ret (Ok (r, eff)) ->
  exists root tip js, root_of u ro root /\ SpecUrdf.tip_of u root to tip /\ path u root tip js /\
  (unit_axes js -> (exists j, In j js /\ moving j = true) -> forall aa name solver,
   robot_to_scene_graph aa r = Err TypeError /\ TesseractRobot_init aa r name solver = Err TypeError).
Proof.
  intros u ro to r eff T E. destruct (from_urdf_ok u ro to r eff T E) as (root & tip & js & Ro & To & Pj & L).
  exists root, tip, js. split; auto. split; auto. split; auto. intros U (j & Ij & Mj) aa name solver.
  destruct (load_chain_ok u root tip js r eff T Pj L) as (_ & _ & Ty & Nm & _ & _ & Li & _ & Ve & Ac & _ & K).
  destruct (K U) as (W & _ & _).
  assert (G : robot_to_scene_graph aa r = Err TypeError).
  { apply (C61_errors aa r W).
    - unfold moving_joints. rewrite Nm, Ty, !map_length. reflexivity.
    - rewrite Ty, map_length. assert (I : In j (filter moving js)) by (apply filter_In; auto). destruct (filter moving js); [contradiction|simpl; lia].
    - auto.
    - intros l [H|[H|[H|H]]].
      + apply (wf_lower r W), H.
      + apply (wf_upper r W), H.
      + apply Ve in H. apply all_limits_len in H. rewrite H, Ty, map_length. reflexivity.
      + rewrite Ac in H. discriminate. }
  split; [exact G|]. unfold TesseractRobot_init, robot_to_tesseract_env, robot_to_tesseract_env_commands. rewrite G. reflexivity.
Qed.
(** With acceleration limits assigned, TesseractRobot moves the joints of the document as the
    document says. *)
Theorem C96_urdf_fwdkin : forall u ro to r eff, tidy u -> robot_from_urdf u ro to = Ret (Ok (r, eff)) ->
  exists root tip js, root_of u ro root /\ SpecUrdf.tip_of u root to tip /\ path u root tip js /\
  (unit_axes js -> forall a aa name solver tr, (forall A, is_SO3 A -> aa A = A) ->
   TesseractRobot_init aa (with_acc r a) name solver = Ok tr ->
   forall theta q frames, assigns q (map (fun j => name ++ "_" ++ j_name j)%string (filter moving js)) theta -> table (tr_env tr) q frames ->
   exists T, tess_fwdkin tr frames None None = Ok T /\ forall x, act T x = urdf_point js theta x).
Proof.
  intros u ro to r eff T E. destruct (from_urdf_ok u ro to r eff T E) as (root & tip & js & Ro & To & Pj & L).
  exists root, tip, js. split; auto. split; auto. split; auto. intros U a aa name solver tr AA I theta q frames AS TB.
  destruct (load_chain_ok u root tip js r eff T Pj L) as (_ & _ & Ty & Nm & _ & _ & _ & _ & _ & _ & _ & K).
  destruct (K U) as (W & Wa & FK).
  assert (Lt : List.length theta = List.length (filter moving js)).
  { apply Forall2_len in AS. rewrite map_length in AS. congruence. }
  destruct (C75_fwdkin aa (with_acc r a) name solver tr AA (with_acc_wf r a W) (with_acc_aux r a Wa) I theta q frames) as (T1 & T2 & F1 & F2 & S1 & S2); auto.
  { unfold moving_joints. cbn [with_acc rnames]. rewrite Nm, map_map. exact AS. }
  exists T1. split; [exact F1|]. intros x.
  destruct (C20_fwdkin_ignore (with_acc r a) theta (with_acc_wf r a W)) as (T3 & F3 & A3).
  { cbn [with_acc rtype]. rewrite Ty, map_length. lia. }
  rewrite F2 in F3. injection F3 as <-. rewrite <- (FK theta x Lt). change (robot_point r theta x) with (robot_point (with_acc r a) theta x).
  rewrite <- A3. unfold act. rewrite S1, S2. reflexivity.
Qed.
(** And it can be built whenever the document states all limits and names do not collide. *)
Theorem C96_urdf_built : forall u ro to r eff, tidy u -> robot_from_urdf u ro to = Ret (Ok (r, eff)) ->
  exists root tip js, root_of u ro root /\ SpecUrdf.tip_of u root to tip /\ path u root tip js /\
  (unit_axes js -> (exists j, In j js /\ moving j = true) -> forall a lo up ve aa name,
   all_limits l_lower (filter moving js) lo -> all_limits l_upper (filter moving js) up -> all_limits l_vel (filter moving js) ve ->
   (List.length (filter moving js) <= List.length a)%nat ->
   (forall j, In j (filter moving js) -> ~ In (j_name j) (fixed_joints r)) ->
   (forall n, In n (map j_name (filter moving js) ++ fixed_joints r) -> (name ++ "_" ++ n <> "world_to_" ++ name)%string) ->
   exists tr, TesseractRobot_init aa (with_acc r a) name "KDLInvKinChainLMA" = Ok tr).
Proof.
  intros u ro to r eff T E. destruct (from_urdf_ok u ro to r eff T E) as (root & tip & js & Ro & To & Pj & L).
  exists root, tip, js. split; auto. split; auto. split; auto. intros U (j & Ij & Mj) a lo up ve aa name Alo Aup Ave La NC NW.
  destruct (load_chain_ok u root tip js r eff T Pj L) as (_ & Su & Ty & Nm & _ & _ & Li & _ & Ve & _ & _ & K).
  destruct (K U) as (W & Wa & FK). set (ms := filter moving js) in *.
  assert (MV : moving_joints (with_acc r a) = map j_name ms) by (unfold moving_joints; cbn [with_acc rnames]; rewrite Nm; reflexivity).
  assert (FX : fixed_joints (with_acc r a) = fixed_joints r) by reflexivity.
  assert (G : graphable (with_acc r a)).
  { constructor.
    - cbn [with_acc rtype]. rewrite Ty, map_length. assert (I : In j ms) by (apply filter_In; auto). destruct ms; [contradiction|simpl; lia].
    - cbn [with_acc rtype]. rewrite Ty. apply Forall_map, Forall_forall. intros k _. unfold mtype, plain_type. destruct (j_kind k); auto.
    - destruct (proj2 (Li lo up) (conj Alo Aup)) as (E1 & E2). exists lo, up, ve, a. cbn [with_acc rlower rupper rvel racc rtype].
      split; [exact E1|]. split; [exact E2|]. split; [apply Ve, Ave|]. split; [reflexivity|].
      apply all_limits_len in Alo, Aup, Ave. rewrite Ty, map_length. fold ms in Alo, Aup, Ave. lia.
    - rewrite MV. cbn [with_acc rtype]. rewrite Ty, !map_length. reflexivity.
    - rewrite MV, FX. assert (N1 : NoDup (map j_name ms)).
      { assert (NJ : NoDup (map j_name js)) by (apply (path_names u root tip js T Pj)).
        clear -NJ. subst ms. induction js as [|k js IH]; simpl in *; [constructor|]. inversion NJ as [|? ? N NJ']; subst.
        destruct (moving k); [|auto]. simpl. constructor; [|auto]. intros H. apply N. apply in_map_iff in H. destruct H as (k' & <- & H). apply filter_In in H. apply in_map, H. }
      assert (N2 : NoDup (fixed_joints r)).
      { unfold fixed_joints, link_name. destruct (rflange r), (rRtool r), (rptool r); cbn [app];
        repeat (apply NoDup_cons; [cbn [In]; intuition discriminate|]); apply NoDup_nil. }
      clear -N1 N2 NC. induction ms as [|k l IH]; [exact N2|]. simpl in *. inversion N1; subst. constructor; auto.
      rewrite in_app_iff. intros [H|H]; [auto|]. apply (NC k); auto. }
  assert (EE : exists e, robot_to_tesseract_env aa (with_acc r a) name true None None = Ok e).
  { apply (C61_environment_iff aa (with_acc r a) name (with_acc_wf r a W)). split; [exact G|]. rewrite MV, FX. exact NW. }
  destruct EE as ((((g & ks) & links) & names) & EE). unfold TesseractRobot_init.
  assert (E' : robot_to_tesseract_env aa (with_acc r a) name true (Some "KDLInvKinChainLMA"%string) None = Ok (g, ks, links, names)) by exact EE.
  rewrite E'. cbn [bind]. destruct (C61_environment aa (with_acc r a) name None None g ks links names (with_acc_wf r a W) EE) as (-> & _).
  eexists. reflexivity.
Qed.
(** The Python inverse kinematics for a robot loaded from URDF reaches the pose in the document's kinematics. *)
Theorem C96_urdf_invkin : forall u ro to r eff, tidy u -> robot_from_urdf u ro to = Ret (Ok (r, eff)) ->
  exists root tip js, root_of u ro root /\ SpecUrdf.tip_of u root to tip /\ path u root tip js /\
  (unit_axes js -> forall argsort, argsort_spec argsort ->
   forall h0 h1 h2 h3 h4 h5 p0 p1 p2 p3 p4 p5 p6, opw r h0 h1 h2 h3 h4 h5 p0 p1 p2 p3 p4 p5 p6 ->
   forall pose last res q, rigid pose -> snd (robot6_sphericalwrist_invkin argsort r pose last) = Ok res -> In q res ->
   List.length q = List.length (filter moving js) /\
   forall x, norm (vsub (urdf_point js q x) (act pose x)) <= (Rmax 1 (norm (vadd p3 p4)) + 7 * norm (vadd (vadd p6 p5) (point6 r x))) * sqrt_eps).
Proof.
  intros u ro to r eff T E. destruct (from_urdf_ok u ro to r eff T E) as (root & tip & js & Ro & To & Pj & L).
  exists root, tip, js. split; auto. split; auto. split; auto. intros U argsort SP h0 h1 h2 h3 h4 h5 p0 p1 p2 p3 p4 p5 p6 O pose last res q RG EQ I.
  destruct (load_chain_ok u root tip js r eff T Pj L) as (_ & _ & Ty & _ & _ & _ & _ & _ & _ & _ & _ & K).
  destruct (K U) as (W & Wa & FK).
  destruct (C37_limits argsort SP r _ _ _ _ _ _ _ _ _ _ _ _ _ O Wa pose last res q RG EQ I) as (Lq & _ & WL & FF & _).
  destruct (C36_sound argsort SP r _ _ _ _ _ _ _ _ _ _ _ _ _ O Wa pose last res q RG EQ I) as (T1 & F1 & B).
  assert (Ln : List.length (rtype r) = List.length (filter moving js)) by (rewrite Ty, map_length; reflexivity).
  assert (L6 : List.length (rtype r) = 6%nat) by (rewrite (opw_types _ _ _ _ _ _ _ _ _ _ _ _ _ _ O); reflexivity).
  split; [congruence|]. intros x. destruct (C20_fwdkin_ignore r q W) as (T3 & F3 & A3); [lia|].
  rewrite FF, F3 in F1. injection F1 as ->. rewrite <- FK by congruence. rewrite <- A3. apply B.
Qed.

(** Robot Raconteur documents state acceleration limits: their robots can be used at once. *)
Theorem C96_rr_built : forall parse doc c r, load_robot_info parse doc c = Ok (Fin r) -> Forall unit3 (rH r) ->
  (0 < List.length (rtype r))%nat -> NoDup (moving_joints r ++ fixed_joints r) ->
  forall aa name, (forall n, In n (moving_joints r ++ fixed_joints r) -> (name ++ "_" ++ n <> "world_to_" ++ name)%string) ->
  exists tr, TesseractRobot_init aa r name "KDLInvKinChainLMA" = Ok tr.
Proof.
  intros parse doc c r E U P0 ND aa name NW. pose proof (loaded_wf _ _ _ _ E U) as W. pose proof (C71_limits _ _ _ _ E) as (_ & _ & _ & _ & _ & _ & PT).
  assert (G : graphable r).
  { apply load_iff in E. destruct E as (ch & n & infos & _ & _ & _ & Sr).
    destruct (sr_joints _ _ _ _ _ Sr) as (lo & up & ve & ac & ns & Sj & Elo & Eup & Eve & Eac & Ens).
    pose proof (says_joints_len _ _ _ _ _ _ _ _ Sj) as (J1 & J2 & J3 & J4 & J5 & J6).
    constructor; auto.
    - exists lo, up, ve, ac. repeat (split; [assumption|]). lia.
    - unfold moving_joints. rewrite Ens. congruence. }
  destruct (proj2 (C61_environment_iff aa r name W) (conj G NW)) as ((((g & ks) & links) & names) & EE). unfold TesseractRobot_init.
  assert (E' : robot_to_tesseract_env aa r name true (Some "KDLInvKinChainLMA"%string) None = Ok (g, ks, links, names)) by exact EE.
  rewrite E'. cbn [bind]. destruct (C61_environment aa r name None None g ks links names W EE) as (-> & _).
  eexists. reflexivity.
Qed.

(** * Instances *)
(** A robot of PropUrdf that loads is refused. *)
Theorem C96_refuted : exists u r eff, tidy u /\ robot_from_urdf u None None = Ret (Ok (r, eff)) /\
  forall aa name solver, TesseractRobot_init aa r name solver = Err TypeError.
Proof.
  destruct C49_ex as (r & eff & E). exists u_ex, r, eff. split; [exact u_ex_tidy|]. split; [exact E|].
  destruct (C96_urdf_refused u_ex None None r eff u_ex_tidy E) as (root & tip & js & Ro & To & Pj & H).
  assert (root = "base"%string) by (apply (proj2 u_ex_root), Ro). subst root.
  assert (tip = "tool"%string) by (apply (proj2 u_ex_tip), To). subst tip.
  rewrite (path_unique _ _ _ _ _ u_ex_tidy Pj u_ex_path) in H.
  intros aa name solver. apply (H u_ex_unit). exists jn_turn. split; [simpl; auto|reflexivity].
Qed.

Lemma fold_bare u : tidy u -> forall js ps s, (forall j, In j js -> In j (u_joints u)) ->
  Forall (fun j => get (link_map u) (j_child j) = Ok None /\ j_kind j = Revolute /\ j_axis j <> None) js ->
  map j_origin js = map (fun p => Some (Upose (Some p) None)) ps -> s_p s = vzero ->
  exists s', fold_out (load_joint u) (map j_name js) s = Ok s' /\ s_R s' = s_R s /\ s_p s' = vzero /\
    s_H s' = s_H s ++ map (fun j => mvec (s_R s) (axis_of j)) js /\ s_P s' = s_P s ++ map (fun p => vadd vzero (mvec (s_R s) p)) ps.
Proof.
  intros T. induction js as [|j js IH]; intros [|p ps] s I F Eo Ez; try discriminate Eo.
  { exists s. cbn. rewrite !app_nil_r. auto. }
  inversion F as [|? ? (G & K & A) F']; subst. injection Eo as Eo Eos. cbn [map fold_out].
  rewrite (load_joint_eq u s j T (I j (or_introl eq_refl))). unfold inert. rewrite G. cbn [bind]. rewrite K. destruct (j_axis j) eqn:Ea; [|congruence]. cbn [bind].
  assert (M : moving j = true) by (unfold moving; rewrite K; reflexivity).
  destruct (IH ps (after s j (s_m s))) as (s' & E1 & E2 & E3 & E4 & E5); auto.
  - intros k Ik. apply I. now right.
  - unfold after. rewrite M. reflexivity.
  - assert (ER : s_R (after s j (s_m s)) = s_R s) by (unfold after; rewrite M; cbn [s_R]; unfold next_R; rewrite Eo; reflexivity).
    exists s'. split; [exact E1|]. rewrite ER in *. split; [exact E2|]. split; [exact E3|]. rewrite E4, E5. split.
    + unfold after. rewrite M. cbn [s_H]. unfold next_R. rewrite Eo. cbn [o_rpy]. rewrite <- app_assoc. reflexivity.
    + unfold after. rewrite M. cbn [s_P]. unfold next_p. rewrite Eo. cbn [o_xyz]. rewrite Ez, <- app_assoc. reflexivity.
Qed.
(** A six-axis arm with all limits. *)
Definition lim6 := Some (Ulimit (Some (-3)) (Some 3) (Some 1) (Some 100)).
Definition at6 (p : vec3) := Some (Upose (Some p) None).
Definition js6 : list ujoint :=
  [Ujoint "j1" "l0" "l1" Revolute (Some ez) (at6 ez) lim6; Ujoint "j2" "l1" "l2" Revolute (Some ey) (at6 ex) lim6;
   Ujoint "j3" "l2" "l3" Revolute (Some ey) (at6 (V3 0 0 2)) lim6; Ujoint "j4" "l3" "l4" Revolute (Some ex) (at6 (V3 (1/2) 0 0)) lim6;
   Ujoint "j5" "l4" "l5" Revolute (Some ey) (at6 (V3 (1/2) 0 0)) lim6; Ujoint "j6" "l5" "l6" Revolute (Some ex) (at6 ex) lim6].
Definition u6 : urdf := Urdf (map (fun l => (l, None)) ["l0"; "l1"; "l2"; "l3"; "l4"; "l5"; "l6"]%string) js6.
Lemma u6_tidy : tidy u6. Proof. constructor; simpl; nodup. Qed.
Lemma u6_path : path u6 "l0" "l6" js6.
Proof.
  unfold js6.
  match goal with |- path u6 _ _ [?a; ?b; ?c; ?d; ?e; ?f] =>
    apply (path_down u6 "l0" f [a; b; c; d; e]); [|simpl; tauto|discriminate];
    apply (path_down u6 "l0" e [a; b; c; d]); [|simpl; tauto|discriminate];
    apply (path_down u6 "l0" d [a; b; c]); [|simpl; tauto|discriminate];
    apply (path_down u6 "l0" c [a; b]); [|simpl; tauto|discriminate];
    apply (path_down u6 "l0" b [a]); [|simpl; tauto|discriminate];
    apply (path_down u6 "l0" a []); [|simpl; tauto|discriminate] end. constructor.
Qed.
Lemma u6_acyclic : acyclic u6.
Proof.
  exists (fun s => if String.eqb s "l0" then 0 else if String.eqb s "l1" then 1 else if String.eqb s "l2" then 2 else if String.eqb s "l3" then 3
    else if String.eqb s "l4" then 4 else if String.eqb s "l5" then 5 else 6)%nat.
  simpl. intros j H. each; simpl; lia.
Qed.
Lemma u6_connected : connected u6. Proof. intros j H. simpl in H. unfold declared. simpl. each; simpl; tauto. Qed.
Lemma u6_unit : unit_axes js6. Proof. intros j H M. simpl in H. each; unfold unit3, dot; simpl; ring. Qed.
Lemma u6_root : root_of u6 (Some "l0"%string) "l0". Proof. split; [reflexivity|]. unfold declared; simpl; auto. Qed.
Lemma u6_loads : exists r eff, robot_from_urdf u6 (Some "l0"%string) (Some "l6"%string) = Ret (Ok (r, eff)).
Proof.
  apply (C49_loads u6 (Some "l0"%string) (Some "l6"%string) "l0" "l6" js6 u6_tidy u6_acyclic u6_connected u6_root eq_refl u6_path); [discriminate| |exact u6_unit].
  unfold js6. repeat (apply Forall_cons; [right; split; [left; reflexivity|discriminate]|]). apply Forall_nil.
Qed.
Lemma u6_robot r eff : robot_from_urdf u6 (Some "l0"%string) (Some "l6"%string) = Ret (Ok (r, eff)) ->
  rH r = [ez; ey; ey; ex; ey; ex] /\ rP r = [ez; ex; V3 0 0 2; V3 (1/2) 0 0; vscale (1/2) ex; vscale 1 ex; vzero] /\
  rRtool r = Some I3 /\ rptool r = Some vzero /\ rflange r = None /\ rbase r = None /\
  rlower r = Some lo3s /\ rupper r = Some up3s /\ rtype r = [Rotary; Rotary; Rotary; Rotary; Rotary; Rotary] /\ wf_robot r /\ wf_aux r /\
  load_chain u6 "l0" "l6" (map j_name js6) = Ok (r, eff).
Proof.
  intros E. destruct (from_urdf_ok u6 _ _ r eff u6_tidy E) as (root & tip & js & Ro & To & Pj & L).
  destruct Ro as (<- & _). change ("l6"%string = tip) in To. subst tip.
  rewrite (path_unique _ _ _ _ _ u6_tidy Pj u6_path) in *. clear js Pj.
  destruct (load_chain_ok u6 _ _ js6 r eff u6_tidy u6_path L) as (_ & _ & Ty & _ & _ & _ & Li & _ & _ & _ & _ & K).
  destruct (K u6_unit) as (W & Wa & _). clear K.
  destruct (proj2 (Li lo3s up3s)) as (L1 & L2). { split; unfold lo3s, up3s; cbn; repeat (apply Forall2_cons; [reflexivity|]); apply Forall2_nil. }
  pose proof L as L0.
  match type of L with load_chain _ _ _ (map j_name js6) = _ => unfold js6 in L end.
  match type of L with load_chain _ _ _ (map j_name [?a; ?b; ?c; ?d; ?e; ?f]) = _ =>
    change [a; b; c; d; e; f] with ([a; b; c; d; e] ++ [f]) in L; rewrite (load_chain_eq u6 "l0" "l6" [a; b; c; d; e] f u6_tidy) in L by (intros j' I; exact I) end.
  destruct (fold_bare u6 u6_tidy js6 [ez; ex; V3 0 0 2; V3 (1/2) 0 0; V3 (1/2) 0 0; ex] lstart) as (s & FO & SR & Sp & SH & SPp); [auto| |reflexivity|reflexivity|].
  { unfold js6. repeat (apply Forall_cons; [split; [reflexivity|]; split; [reflexivity|discriminate]|]). apply Forall_nil. }
  match type of L with bind ?x _ = _ => change x with (fold_out (load_joint u6) (map j_name js6) lstart) in L end. rewrite FO in L. clear FO. cbn [bind] in L.
  apply bind_ok in L. destruct L as (i & _ & L). apply bind_ok in L. destruct L as (r' & Er & L). apply (f_equal (fun o => match o with Ok (x, _) => x | Err _ => r' end)) in L. cbv beta iota in L. subst r'.
  destruct (Robot_init_stored _ _ Er) as (C1 & C2 & _ & _ & C5 & _ & _ & _ & _ & _ & _ & C12 & C13).
  unfold cargs in C1, C2, C5, C12, C13. cbn [aH aP aRtool aptool aflange abase columns] in *.
  apply (col_inj (rH r)) in C1. apply (col_inj (rP r)) in C2. rewrite SH in C1. rewrite SPp, Sp in C2. rewrite SR in C5.
  change (s_R lstart) with I3 in C1, C2, C5. change (s_H lstart) with (@nil vec3) in C1. change (s_P lstart) with (@nil vec3) in C2.
  split. { rewrite C1, (map_ext _ axis_of) by (intros v; apply mvec_I). reflexivity. }
  split. { rewrite C2, (map_ext _ (fun v => v)), map_id by (intros v; rewrite mvec_I; la_ring). cbn [app].
           replace (vscale (1/2) ex) with (V3 (1/2) 0 0) by (unfold vscale, ex; cbn; f_equal; ring).
           replace (vscale 1 ex) with ex by la_ring. reflexivity. }
  split; [congruence|]. split; [congruence|]. split; [exact C12|]. split; [exact C13|]. auto 10.
Qed.
(** It can be used with Tesseract once acceleration limits are given, ... *)
Example C96_ex_tesseract : exists r eff, robot_from_urdf u6 (Some "l0"%string) (Some "l6"%string) = Ret (Ok (r, eff)) /\
  exists tr, TesseractRobot_init (fun A => A) (with_acc r [1; 1; 1; 1; 1; 1]) "arm" "KDLInvKinChainLMA" = Ok tr.
Proof.
  destruct u6_loads as (r & eff & E). exists r, eff. split; [exact E|]. destruct (u6_robot r eff E) as (_ & _ & Et & Ep & Ef & _ & _ & _ & Ty & _).
  destruct (C96_urdf_built u6 _ _ r eff u6_tidy E) as (root & tip & js & (<- & _) & To & Pj & H). change ("l6"%string = tip) in To. subst tip.
  rewrite (path_unique _ _ _ _ _ u6_tidy Pj u6_path) in H. clear js Pj.
  assert (FX : fixed_joints r = ["link_6_to_chain_tip"; "tip_to_tool"]%string) by (unfold fixed_joints; rewrite Et, Ep, Ef, Ty; reflexivity).
  apply (H u6_unit) with (lo := lo3s) (up := up3s) (ve := [1; 1; 1; 1; 1; 1]).
  - eexists. split; [left; reflexivity|reflexivity].
  - unfold lo3s; cbn; repeat (apply Forall2_cons; [reflexivity|]); apply Forall2_nil.
  - unfold up3s; cbn; repeat (apply Forall2_cons; [reflexivity|]); apply Forall2_nil.
  - cbn; repeat (apply Forall2_cons; [reflexivity|]); apply Forall2_nil.
  - cbn. lia.
  - rewrite FX. cbn. intros j I. each; cbn; intuition discriminate.
  - rewrite FX. cbn. intros n I. each; discriminate.
Qed.
(** ... and the closed-form inverse kinematics answers for a pose. *)
Example C96_ex_invkin : exists r eff, robot_from_urdf u6 (Some "l0"%string) (Some "l6"%string) = Ret (Ok (r, eff)) /\
  opw r ez ey ey ex ey ex ez ex (V3 0 0 2) (V3 (1/2) 0 0) (vscale (1/2) ex) (vscale 1 ex) vzero /\ rigid pose_reg /\
  exists res q, snd (robot6_sphericalwrist_invkin insertion_argsort r pose_reg None) = Ok res /\ In q res.
Proof.
  destruct u6_loads as (r & eff & E). exists r, eff. split; [exact E|]. destruct (u6_robot r eff E) as (EH & EP & Et & Ep & Ef & Eb & Lo & Up & Ty & W & Wa & _).
  assert (O : opw r ez ey ey ex ey ex ez ex (V3 0 0 2) (V3 (1/2) 0 0) (vscale (1/2) ex) (vscale 1 ex) vzero).
  { destruct r_ikl_opw as [_ _ _ _ O1 O2 O3 O4 O5 O6 O7 O8]. constructor; auto. }
  split; [exact O|]. split; [apply pose_reg_rigid|].
  destruct r_ik_geometry as (Y0 & O2 & O3 & NE & Q).
  assert (PT : forall x, point6 r x = point6 (r_ik (Some lo3s) (Some up3s)) x).
  { intros x. unfold point6, act_tool. rewrite Et, Ep, Ef. cbn. rewrite mvec_I. la_ring. }
  assert (WO : wrist_of r pose_reg (vadd vzero (vscale 1 ex)) (tR pose_reg) (V3 2 0 3)).
  { intros x. rewrite (pose_reg_wrist (Some lo3s) (Some up3s) x), Eb, PT. reflexivity. }
  assert (NL : ~ no_limits r) by (unfold no_limits; rewrite Lo, Up; intros [X|X]; discriminate).
  destruct (C40_regular insertion_argsort insertion_argsort_spec r _ _ _ _ _ _ _ _ _ _ _ _ _ O Wa Y0 O2 O3 NE Q
    pose_reg (tR pose_reg) (V3 2 0 3) pose_reg_rigid WO (or_introl NL) r_ik_wrist) as (res & ER & H).
  exists res. destruct q_reg_regular as (R1 & R2 & R3 & R4 & R5 & R6 & R7).
  assert (RC : reaches r q_reg pose_reg).
  { intros x. rewrite <- (q_reg_reaches (Some lo3s) (Some up3s) x). unfold robot_point, act_tool. rewrite EH, EP, Et, Ep, Ef, Eb, Ty. cbn [act_opt].
    replace (vadd (mvec I3 x) vzero) with x by (rewrite mvec_I; la_ring). reflexivity. }
  destruct (H _ _ _ _ _ _ RC R1 R2 R3 R4 R5 R6) as (q & I & _); [|eauto].
  intros j t J. destruct (R7 j t J) as (AL & B). split; [|exact B]. intros l u L. apply (AL l u). unfold limits_of in *.
  rewrite Lo, Up in L. exact L.
Qed.
Print Assumptions C96_urdf_refused.
Print Assumptions C96_urdf_fwdkin.
Print Assumptions C96_urdf_built.
Print Assumptions C96_urdf_invkin.
Example C96_ex_rr : exists r tr, load_robot_info no_parse (ydoc [ychain [0; 1]%nat]) 0 = Ok (Fin r) /\ Forall unit3 (rH r) /\
  TesseractRobot_init (fun A => A) r "arm" "KDLInvKinChainLMA" = Ok tr.
Proof.
  assert (U : Forall unit3 (rH (yrobot [j_turn; j_slide]))).
  { cbn. repeat (apply Forall_cons; [unfold unit3, dot; cbn; ring|]). apply Forall_nil. }
  destruct (C96_rr_built _ _ _ _ load_both U) with (aa := fun A : mat3 => A) (name := "arm"%string) as (tr & E).
  - cbn. lia.
  - cbn. repeat (apply NoDup_cons; [cbn [In]; intuition discriminate|]); apply NoDup_nil.
  - cbn. intros n I. each; discriminate.
  - exists (yrobot [j_turn; j_slide]), tr. split; [exact load_both|]. auto.
Qed.
Print Assumptions C96_rr_built.
Print Assumptions C96_refuted.
