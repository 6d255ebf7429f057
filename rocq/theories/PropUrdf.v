(** Properties C49-C52, C68, C69: the URDF loader. *)
From Coq Require Import Reals ZArith String List Bool Lra Lia.
From Verif Require Import LinAlg RealAux Py FactsReal FactsLinAlg ModelRot SpecRot FactsRot ModelTransform ModelRobot
  ModelKin SpecKin FactsKin FactsJac ModelUrdf SpecUrdf FactsUrdf FactsInertia.
Import ListNotations.
Open Scope R_scope.

(* ---- a robot: base -(turns)- arm -(slides)- hand -(fixed)- tool, and a camera on the base ---- *)
Definition jn_turn := Ujoint "turn" "base" "arm" Revolute (Some (V3 0 0 1))
  (Some (Upose (Some (V3 0 0 1)) (Some (V3 0 0 (PI/2))))) (Some (Ulimit (Some (-1)) (Some 1) (Some 2) None)).
Definition jn_slide := Ujoint "slide" "arm" "hand" Sliding (Some (V3 0 (3/5) (4/5)))
  (Some (Upose (Some (V3 1 0 0)) None)) (Some (Ulimit (Some 0) (Some (1/2)) None None)).
Definition jn_tool := Ujoint "mount" "hand" "tool" Fixed None (Some (Upose None (Some (V3 1 0 0)))) None.
Definition jn_cam := Ujoint "cam_mount" "base" "cam" Fixed None (Some (Upose (Some (V3 5 5 5)) None)) None.
Definition u_ex : urdf :=
  Urdf [("tool", None); ("base", None); ("arm", None); ("hand", None); ("cam", None)]%string
       [jn_tool; jn_cam; jn_turn; jn_slide].
Definition js_ex := [jn_turn; jn_slide; jn_tool].
Ltac nodup := repeat (apply NoDup_cons; [simpl; intuition discriminate|]); apply NoDup_nil.
Ltac each := repeat match goal with H : _ \/ _ |- _ => destruct H end; subst; try contradiction.
Lemma u_ex_tidy : tidy u_ex.
Proof. constructor; simpl; nodup. Qed.
Lemma u_ex_acyclic : acyclic u_ex.
Proof.
  exists (fun s => if String.eqb s "base" then 0 else if String.eqb s "arm" then 1 else if String.eqb s "hand" then 2 else 3)%nat.
  simpl. intros j H. each; simpl; lia.
Qed.
Lemma u_ex_connected : connected u_ex.
Proof. intros j H. simpl in H. unfold declared. simpl. each; simpl; tauto. Qed.
Lemma u_ex_path : path u_ex "base" "tool" js_ex.
Proof.
  apply (path_down u_ex "base" jn_tool [jn_turn; jn_slide]); [|simpl; auto|discriminate].
  apply (path_down u_ex "base" jn_slide [jn_turn]); [|simpl; auto|discriminate].
  apply (path_down u_ex "base" jn_turn []); [|simpl; auto|discriminate]. constructor.
Qed.
Lemma u_ex_root : root_of u_ex None "base".
Proof.
  split. { split. { unfold declared. simpl. auto. } simpl. intros j H. each; discriminate. }
  intros r' [D N]. unfold declared in D. simpl in D. each; auto; exfalso.
  - exact (N jn_tool (or_introl eq_refl) eq_refl).
  - refine (N jn_turn _ eq_refl). simpl; auto.
  - refine (N jn_slide _ eq_refl). simpl; auto.
  - refine (N jn_cam _ eq_refl). simpl; auto.
Qed.
Lemma u_ex_tip : tip_of u_ex "base" None "tool".
Proof.
  split.
  - split. { split. { unfold declared; simpl; auto. } simpl. intros j H. each; discriminate. }
    exists js_ex. split; [exact u_ex_path|]. split.
    + simpl. intros j H. each; discriminate.
    + exists jn_turn. split; [simpl; auto|discriminate].
  - intros t [[D L] [js [Pj [_ [j [Ij K]]]]]]. unfold declared in D. simpl in D. each; auto; exfalso.
    + refine (L jn_cam _ eq_refl). simpl; auto.
    + refine (L jn_slide _ eq_refl). simpl; auto.
    + refine (L jn_tool _ eq_refl). simpl; auto.
    + assert (Pc : path u_ex "base" "cam" [jn_cam]).
      { apply (path_down u_ex "base" jn_cam []); [constructor|simpl; auto|discriminate]. }
      rewrite (path_unique _ _ _ _ _ u_ex_tidy Pj Pc) in Ij. simpl in Ij. each.
Qed.
Lemma u_ex_supported : Forall supported js_ex.
Proof.
  repeat apply Forall_cons; try apply Forall_nil; unfold supported; simpl.
  - right. split; [auto|discriminate].
  - right. split; [auto|discriminate].
  - auto.
Qed.
Lemma u_ex_unit : unit_axes js_ex.
Proof. intros j H M. simpl in H. each; try discriminate; unfold unit3, dot; simpl; field. Qed.

(* ================= C49 ================= *)
Theorem C49_fwdkin : forall u ro to r eff, tidy u -> robot_from_urdf u ro to = Ret (Ok (r, eff)) ->
  exists root tip js, root_of u ro root /\ tip_of u root to tip /\ path u root tip js /\
  (unit_axes js -> forall q, List.length q = List.length (filter moving js) ->
   exists T, fwdkin r q true = Ok T /\ rigid T /\ forall x, act T x = urdf_point js q x).
Proof.
  intros u ro to r eff T E. destruct (from_urdf_ok u ro to r eff T E) as (root & tip & js & Ro & To & Pj & L).
  exists root, tip, js. split; auto. split; auto. split; auto. intros U q Lq.
  destruct (load_chain_ok u root tip js r eff T Pj L) as (_ & _ & Ty & _ & _ & _ & _ & _ & _ & _ & _ & K).
  destruct (K U) as (W & Wa & FK). assert (Ln : List.length q = List.length (rtype r)) by (rewrite Ty, map_length; auto).
  assert (F := fwdkin_ignore r q W (Nat.eq_le_incl _ _ (eq_sym Ln))).
  eexists. split; [exact F|]. split.
  - exact (rigid_apply_aux r _ Wa (rigid_bare r q W)).
  - intros x. rewrite act_fwdkin, FK; auto.
Qed.
(** Within its limits (if it has any) the robot also accepts the joint vector without the
    ignore flag. *)
Theorem C49_fwdkin_limits : forall u ro to r eff, tidy u -> robot_from_urdf u ro to = Ret (Ok (r, eff)) ->
  exists root tip js, root_of u ro root /\ tip_of u root to tip /\ path u root tip js /\
  (unit_axes js -> forall q, List.length q = List.length (filter moving js) -> within_limits r q ->
   exists T, fwdkin r q false = Ok T /\ forall x, act T x = urdf_point js q x).
Proof.
  intros u ro to r eff T E. destruct (from_urdf_ok u ro to r eff T E) as (root & tip & js & Ro & To & Pj & L).
  exists root, tip, js. split; auto. split; auto. split; auto. intros U q Lq WL.
  destruct (load_chain_ok u root tip js r eff T Pj L) as (_ & _ & Ty & _ & _ & _ & _ & _ & _ & _ & _ & K).
  destruct (K U) as (W & Wa & FK). assert (Ln : List.length q = List.length (rtype r)) by (rewrite Ty, map_length; auto).
  assert (F := fwdkin_ignore r q W (Nat.eq_le_incl _ _ (eq_sym Ln))).
  eexists. rewrite (proj1 (fwdkin_limits r q W Ln) WL). split; [exact F|].
  intros x. rewrite act_fwdkin, FK; auto.
Qed.
(** Loading succeeds for every chain of fixed, revolute and prismatic joints. *)
Theorem C49_loads : forall u ro to root tip js, tidy u -> acyclic u -> connected u ->
  root_of u ro root -> tip_of u root to tip -> path u root tip js -> js <> [] ->
  Forall supported js -> unit_axes js ->
  exists r eff, robot_from_urdf u ro to = Ret (Ok (r, eff)).
Proof.
  intros u ro to root tip js T A C Ro To Pj N F U. rewrite (from_urdf_runs u ro to root tip js T A Ro To Pj).
  destruct (load_chain_loads u root tip js T C Pj N F U) as (r & eff & ->). eauto.
Qed.
Example C49_ex : exists r eff, robot_from_urdf u_ex None None = Ret (Ok (r, eff)).
Proof.
  apply (C49_loads u_ex None None "base" "tool" js_ex);
    auto using u_ex_tidy, u_ex_acyclic, u_ex_connected, u_ex_root, u_ex_tip, u_ex_path, u_ex_supported, u_ex_unit.
  discriminate.
Qed.
(** The chain really bends: turning by a right angle and sliding by 1 takes the tool
    origin to (-1, -3/5, 9/5). *)
Example C49_ex_point : urdf_point js_ex [PI/2; 1] vzero = V3 (-1) (-3/5) (9/5).
Proof.
  unfold js_ex, jn_turn, jn_slide, jn_tool. cbn [urdf_point j_origin j_kind origin_motion o_xyz o_rpy or0 axis_of j_axis].
  unfold rpy_turn. cbn [vx vy vz].
  assert (Z : forall k t, rotate k t vzero = vzero).
  { intros [x y z] t. unfold rotate, vzero, vadd, vscale, cross, dot. simpl. f_equal; ring. }
  assert (Q : forall x y z, rotate (V3 0 0 1) (PI/2) (V3 x y z) = V3 (- y) x z).
  { intros x y z. unfold rotate. rewrite cos_PI2, sin_PI2. unfold vadd, vscale, cross, dot. simpl. f_equal; ring. }
  assert (O : forall k v, rotate k 0 v = v).
  { intros [a b c] [x y z]. unfold rotate. rewrite cos_0, sin_0. unfold vadd, vscale, cross, dot. simpl. f_equal; ring. }
  rewrite !Z. replace (vadd (V3 1 0 0) (vadd (vscale 1 (V3 0 (3/5) (4/5))) (vadd vzero vzero))) with (V3 1 (3/5) (4/5))
    by (unfold vadd, vscale, vzero; simpl; f_equal; field).
  rewrite Q, !O, Q. unfold vadd; simpl. f_equal; field.
Qed.
(** The URDF default for a missing axis is (1,0,0); the loader raises instead. *)
Definition j_noaxis := Ujoint "j" "a" "b" Revolute None None None.
Definition u_noaxis := Urdf [("a", None); ("b", None)]%string [j_noaxis].
Lemma u_noaxis_tidy : tidy u_noaxis. Proof. constructor; simpl; nodup. Qed.
Lemma u_noaxis_path : path u_noaxis "a" "b" [j_noaxis].
Proof. apply (path_down u_noaxis "a" j_noaxis []); [constructor|simpl; auto|discriminate]. Qed.
Theorem C49_default_axis_refuted : exists u js, tidy u /\ acyclic u /\ connected u /\ path u "a" "b" js /\ js <> [] /\
  (forall j, In j js -> j_kind j = Revolute) /\ unit_axes js /\
  robot_from_urdf u (Some "a"%string) (Some "b"%string) = Ret (Err ValueError).
Proof.
  exists u_noaxis, [j_noaxis]. split; [exact u_noaxis_tidy|]. split.
  { exists (fun s => if String.eqb s "a" then 0 else 1)%nat. simpl. intros j H. each. simpl. lia. }
  split. { intros j H. unfold declared. simpl in *. each; simpl; tauto. }
  split; [exact u_noaxis_path|]. split; [discriminate|]. split. { intros j H. simpl in H. each; auto. }
  split. { intros j H _. simpl in H. each. unfold unit3, dot; simpl; ring. }
  reflexivity.
Qed.
Print Assumptions C49_fwdkin.
Print Assumptions C49_fwdkin_limits.
Print Assumptions C49_loads.
Print Assumptions C49_default_axis_refuted.

(* ================= C50 ================= *)
Theorem C50_selects : forall u ro to r eff, tidy u -> robot_from_urdf u ro to = Ret (Ok (r, eff)) ->
  exists root tip js, root_of u ro root /\ tip_of u root to tip /\ path u root tip js /\
  (forall js', path u root tip js' -> js' = js) /\
  rnames r = Some (map j_name (filter moving js)) /\ rroot r = Some root /\ rtip r = Some tip /\
  map jcode (rtype r) = map (fun j => match j_kind j with Revolute => 0%Z | _ => 1%Z end) (filter moving js).
Proof.
  intros u ro to r eff T E. destruct (from_urdf_ok u ro to r eff T E) as (root & tip & js & Ro & To & Pj & L).
  exists root, tip, js. split; auto. split; auto. split; auto.
  destruct (load_chain_ok u root tip js r eff T Pj L) as (_ & _ & Ty & Nm & Rr & Rt & _).
  split. { intros js' Pj'. exact (path_unique u root tip js' js T Pj' Pj). }
  split; auto. split; auto. split; auto. rewrite Ty, map_map. apply map_ext. intros j. unfold mtype. destruct (j_kind j); auto.
Qed.
Theorem C50_one_candidate : forall u ro root, tidy u -> acyclic u -> root_of u ro root ->
  ~ (exists tip, candidate u root tip /\ forall t, candidate u root t -> t = tip) ->
  robot_from_urdf u ro None = Ret (Err AssertionError).
Proof. exact from_urdf_no_tip. Qed.
Theorem C50_no_root : forall u ro to, (forall root, ~ root_of u ro root) -> robot_from_urdf u ro to = Ret (Err AssertionError).
Proof. exact from_urdf_no_root. Qed.
Theorem C50_unreachable_tip : forall u ro root tip, tidy u -> acyclic u -> root_of u ro root ->
  (forall js, ~ path u root tip js) -> robot_from_urdf u ro (Some tip) = Ret (Err KeyError).
Proof. exact from_urdf_no_path. Qed.
Example C50_ex : exists r eff, robot_from_urdf u_ex None None = Ret (Ok (r, eff)) /\
  rnames r = Some ["turn"; "slide"]%string /\ rtip r = Some "tool"%string.
Proof.
  destruct C49_ex as (r & eff & E). exists r, eff. split; auto.
  destruct (C50_selects u_ex None None r eff u_ex_tidy E) as (root & tip & js & Ro & To & Pj & _ & Nm & Rr & Rt & _).
  assert (root = "base"%string) as -> by (apply u_ex_root, Ro).
  assert (tip = "tool"%string) as -> by (apply u_ex_tip, To).
  rewrite (path_unique _ _ _ _ _ u_ex_tidy Pj u_ex_path) in Nm. auto.
Qed.
(** Two arms on one base: no unique candidate. *)
Definition jl := Ujoint "left" "base" "l" Revolute (Some (V3 1 0 0)) None None.
Definition jr := Ujoint "right" "base" "r" Revolute (Some (V3 1 0 0)) None None.
Definition u_two := Urdf [("base", None); ("l", None); ("r", None)]%string [jl; jr].
Example C50_ex_two : tidy u_two /\ acyclic u_two /\ root_of u_two (Some "base"%string) "base" /\
  candidate u_two "base" "l" /\ candidate u_two "base" "r" /\
  robot_from_urdf u_two (Some "base"%string) None = Ret (Err AssertionError).
Proof.
  assert (T : tidy u_two) by (constructor; simpl; nodup).
  assert (A : acyclic u_two). { exists (fun s => if String.eqb s "base" then 0 else 1)%nat. simpl. intros j H. each; simpl; lia. }
  assert (Ro : root_of u_two (Some "base"%string) "base") by (split; [auto|unfold declared; simpl; auto]).
  assert (C : forall j, j = jl \/ j = jr -> candidate u_two "base" (j_child j)).
  { intros j Hj. split.
    - split. { unfold declared. simpl. each; simpl; auto. } intros j' H. simpl in H. each; discriminate.
    - exists ([] ++ [j]). split. { constructor. { each; constructor. } { simpl. destruct Hj; auto. } each; discriminate. }
      split. { intros j' H. simpl in H. each; discriminate. } exists j. split; [now left|]. each; discriminate. }
  assert (Cl := C jl (or_introl eq_refl)). assert (Cr := C jr (or_intror eq_refl)).
  repeat (split; [assumption|]). apply (C50_one_candidate u_two (Some "base"%string) "base" T A Ro).
  intros [tip [_ U]]. pose proof (U _ Cl). pose proof (U _ Cr). simpl in *. congruence.
Qed.
Example C50_ex_unreachable : forall js, ~ path u_two "l" "r" js.
Proof.
  intros js Pj. assert (E : get_chain u_two "l" "r" = Ret (Err KeyError)) by reflexivity.
  rewrite (get_chain_path u_two "l" "r" js) in E; [discriminate| |auto]. constructor; simpl; nodup.
Qed.
Print Assumptions C50_selects.
Print Assumptions C50_one_candidate.
Print Assumptions C50_no_root.
Print Assumptions C50_unreachable_tip.

(* ================= C51 ================= *)
Theorem C51_limits : forall u ro to r eff, tidy u -> robot_from_urdf u ro to = Ret (Ok (r, eff)) ->
  exists root tip js, root_of u ro root /\ tip_of u root to tip /\ path u root tip js /\
  let ms := filter moving js in
  (forall l h, rlower r = Some l /\ rupper r = Some h <-> all_limits l_lower ms l /\ all_limits l_upper ms h) /\
  (rlower r = None <-> rupper r = None) /\
  (forall v, rvel r = Some v <-> all_limits l_vel ms v) /\ racc r = None /\
  (forall e, eff = Some e <-> all_limits l_effort ms e).
Proof.
  intros u ro to r eff T E. destruct (from_urdf_ok u ro to r eff T E) as (root & tip & js & Ro & To & Pj & L).
  exists root, tip, js. split; auto. split; auto. split; auto.
  destruct (load_chain_ok u root tip js r eff T Pj L) as (_ & _ & _ & _ & _ & _ & A & B & C & D & F & _).
  cbv zeta. split; [exact A|]. split; [exact B|]. split; [exact C|]. split; auto.
Qed.
Theorem C51_only_supported : forall u ro to r eff, tidy u -> robot_from_urdf u ro to = Ret (Ok (r, eff)) ->
  exists root tip js, root_of u ro root /\ tip_of u root to tip /\ path u root tip js /\ Forall supported js.
Proof.
  intros u ro to r eff T E. destruct (from_urdf_ok u ro to r eff T E) as (root & tip & js & Ro & To & Pj & L).
  exists root, tip, js. split; auto. split; auto. split; auto.
  apply (load_chain_ok u root tip js r eff T Pj L).
Qed.
(** Continuous, floating, planar or unknown joints on the chain raise. *)
Theorem C51_rejects : forall u ro to root tip js, tidy u -> acyclic u -> connected u ->
  root_of u ro root -> tip_of u root to tip -> path u root tip js ->
  (forall j, In j js -> moving j = true -> j_axis j <> None) -> (exists j, In j js /\ exotic j) ->
  robot_from_urdf u ro to = Ret (Err AssertionError).
Proof.
  intros u ro to root tip js T A C Ro To Pj Ax X. rewrite (from_urdf_runs u ro to root tip js T A Ro To Pj).
  f_equal. apply load_chain_exotic; auto.
Qed.
(** In the example the position limits are complete, the velocity limits are not. *)
Example C51_ex : exists r eff, robot_from_urdf u_ex None None = Ret (Ok (r, eff)) /\
  rlower r = Some [-1; 0] /\ rupper r = Some [1; 1/2] /\ rvel r = None /\ eff = None.
Proof.
  destruct C49_ex as (r & eff & E). exists r, eff. split; auto.
  destruct (C51_limits u_ex None None r eff u_ex_tidy E) as (root & tip & js & Ro & To & Pj & A & _ & V & _ & F).
  assert (root = "base"%string) as -> by (apply u_ex_root, Ro).
  assert (tip = "tool"%string) as -> by (apply u_ex_tip, To).
  rewrite (path_unique _ _ _ _ _ u_ex_tidy Pj u_ex_path) in A, V, F. simpl in A, V, F.
  destruct (proj2 (A [-1; 0] [1; 1/2])) as [L H].
  { split; repeat (apply Forall2_cons; [reflexivity|]); apply Forall2_nil. }
  split; auto. split; auto. split.
  - destruct (rvel r) as [v|]; auto. exfalso. destruct (V v) as [K _]. specialize (K eq_refl).
    inversion K as [|? ? ? ? _ K']; subst. inversion K' as [|? ? ? ? K2 _]; subst. discriminate K2.
  - destruct eff as [e|]; auto. exfalso. destruct (F e) as [K _]. specialize (K eq_refl).
    inversion K as [|? ? ? ? K2 _]; subst. discriminate K2.
Qed.
Definition j_wheel := Ujoint "wheel" "a" "b" Continuous (Some (V3 0 1 0)) None None.
Definition u_wheel := Urdf [("a", None); ("b", None)]%string [j_wheel].
Example C51_ex_rejects : tidy u_wheel /\ acyclic u_wheel /\ connected u_wheel /\ path u_wheel "a" "b" [j_wheel] /\
  exotic j_wheel /\ robot_from_urdf u_wheel (Some "a"%string) (Some "b"%string) = Ret (Err AssertionError).
Proof.
  split. { constructor; simpl; nodup. }
  split. { exists (fun s => if String.eqb s "a" then 0 else 1)%nat. simpl. intros j H. each. simpl. lia. }
  split. { intros j H. unfold declared. simpl in *. each; simpl; tauto. }
  split. { apply (path_down u_wheel "a" j_wheel []); [constructor|simpl; auto|discriminate]. }
  split; [left; reflexivity|reflexivity].
Qed.
Print Assumptions C51_limits.
Print Assumptions C51_only_supported.
Print Assumptions C51_rejects.

(* ================= C52 ================= *)
(** For an inertial element that states mass, centre of mass and inertia tensor of a
    body, the matrix gives the body's kinetic energy. *)
Theorem C52_energy : forall i b s Rm, describes i b s -> 1/1000000 < bsum (fun m _ => m) b ->
  exists M, convert_inertial (Some i) Rm = Some M /\ energy_matrix M b.
Proof. exact energy_describes. Qed.
Theorem C52_symmetric : forall i Rm M, convert_inertial i Rm = Some M -> m6T M = M.
Proof.
  intros [i|] Rm M; [|discriminate]. destruct (i_mass i) as [m|] eqn:E; [|unfold convert_inertial; rewrite E; discriminate].
  destruct (Rle_or_lt m (1/1000000)) as [L|L].
  { unfold convert_inertial. rewrite E. rewrite (proj2 (Rleb_true m (1/1000000)) L). discriminate. }
  rewrite (convert_eq i Rm m E L). intros [= <-]. unfold m6T. cbn [b00 b01 b10 b11].
  assert (St : mT (tensor i) = tensor i) by (unfold tensor; destruct (i_tensor i); reflexivity).
  f_equal.
  - generalize (com_of i) (com_rot i). revert St. generalize (tensor i). intros X St p C.
    assert (D : forall A B, mT (madd A B) = madd (mT A) (mT B)) by (intros; la_ring).
    assert (Q : mT (mmul (mmul C X) (mT C)) = mmul (mmul C X) (mT C)).
    { rewrite <- St at 2. la_ring. }
    rewrite D, Q. f_equal. unfold msub, outer. la_ring.
  - unfold hat. la_ring.
  - unfold hat. la_ring.
Qed.
(** An element without a mass above 1e-6 gives no matrix. *)
Theorem C52_light : forall i Rm, (forall m, i_mass i = Some m -> m <= 1/1000000) <-> convert_inertial (Some i) Rm = None.
Proof.
  intros i Rm. destruct (i_mass i) as [m|] eqn:E.
  - destruct (Rle_or_lt m (1/1000000)) as [L|L].
    + unfold convert_inertial. rewrite E, (proj2 (Rleb_true m (1/1000000)) L). split; auto. intros _ m' [= <-]. auto.
    + rewrite (convert_eq i Rm m E L). split; [|discriminate]. intros H. specialize (H m eq_refl). lra.
  - unfold convert_inertial. rewrite E. split; auto. intros _ m. discriminate.
Qed.
(** A dumbbell: masses 1 and 3 on a rod along y in an inertial frame centred at (1,2,3). *)
Definition dumbbell : body := [(1, V3 1 5 3); (3, V3 1 1 3)].
Definition i_dumbbell := Uinertial (Some 4) (Some (Upose (Some (V3 1 2 3)) None)) (Some (Utensor 12 0 0 0 0 12)).
Example C52_ex : describes i_dumbbell dumbbell (fun r => vsub r (V3 1 2 3)) /\ 1/1000000 < bsum (fun m _ => m) dumbbell.
Proof.
  split; [|simpl; lra]. split. { intros [x y z]. unfold com_turn, com_of, or0, vadd, vsub, vneg; simpl. f_equal; ring. }
  unfold dumbbell, i_dumbbell, vsub; simpl. repeat split; try lra; repeat f_equal; lra.
Qed.
(** Turning about z through the origin: 1 * (1 + 25) + 3 * (1 + 1). *)
Example C52_ex_value : energy2 dumbbell (V3 0 0 1) vzero = 26 + 6.
Proof. unfold energy2, dumbbell, norm2, vadd, cross, vzero, dot; simpl. lra. Qed.
Print Assumptions C52_energy.
Print Assumptions C52_symmetric.
Print Assumptions C52_light.

(* ================= C68 ================= *)
(** The matrices M of the loaded robot belong to its bodies if every link has an inertial
    element and fixed joints do not displace their child. *)
Theorem C68_bodies : forall u ro to r eff, tidy u -> robot_from_urdf u ro to = Ret (Ok (r, eff)) ->
  exists root tip js, root_of u ro root /\ tip_of u root to tip /\ path u root tip js /\
  forall mass, (forall k, k = root \/ In k (map j_child js) -> link_mass u k (mass k)) ->
  (forall j, In j js -> j_kind j = Fixed -> same_frame j) ->
  exists Ms, rM r = Some (map rows6 Ms) /\ Forall2 energy_matrix Ms (body_masses mass root js).
Proof.
  intros u ro to r eff T E. destruct (from_urdf_ok u ro to r eff T E) as (root & tip & js & Ro & To & Pj & L).
  exists root, tip, js. split; auto. split; auto. split; auto. intros mass LM SF.
  exact (load_chain_masses u root tip js r eff mass T Pj L LM SF).
Qed.
(** One unit of mass at the origin of the link. *)
Definition i_unit := Uinertial (Some 1) None (Some (Utensor 0 0 0 0 0 0)).
Definition pt : body := [(1, vzero)].
Lemma unit_describes : describes i_unit pt (fun r => r).
Proof.
  split. { intros [x y z]. unfold com_of, com_turn, vadd, vzero; simpl. f_equal; ring. }
  unfold pt, i_unit, vzero; simpl. repeat split; try lra; repeat f_equal; lra.
Qed.
Definition E0 : mat6 := M6 mzero mzero mzero I3.
Lemma unit_convert Rm : convert_inertial (Some i_unit) Rm = Some E0.
Proof.
  rewrite (convert_eq i_unit Rm 1 eq_refl ltac:(lra)). unfold E0, com_rot, com_of, tensor, i_unit, msub, outer, hat. simpl.
  f_equal. f_equal; la_ring.
Qed.
Definition jt := Ujoint "turn" "base" "arm" Revolute (Some (V3 0 0 1)) None None.
Definition jf (o : option upose) := Ujoint "mount" "arm" "tool" Fixed None o None.
Definition u_off o := Urdf [("base", Some i_unit); ("arm", Some i_unit); ("tool", Some i_unit)]%string [jt; jf o].
Lemma u_off_tidy o : tidy (u_off o). Proof. constructor; simpl; nodup. Qed.
Lemma u_off_acyclic o : acyclic (u_off o).
Proof.
  exists (fun s => if String.eqb s "base" then 0 else if String.eqb s "arm" then 1 else 2)%nat.
  simpl. intros j H. each; simpl; lia.
Qed.
Lemma u_off_connected o : connected (u_off o).
Proof. intros j H. unfold declared. simpl in *. each; simpl; tauto. Qed.
Lemma u_off_path o : path (u_off o) "base" "tool" [jt; jf o].
Proof.
  apply (path_down (u_off o) "base" (jf o) [jt]); [|simpl; auto|discriminate].
  apply (path_down (u_off o) "base" jt []); [|simpl; auto|discriminate]. constructor.
Qed.
Lemma u_off_loads o : exists r eff, load_chain (u_off o) "base" "tool" (map j_name [jt; jf o]) = Ok (r, eff) /\
  robot_from_urdf (u_off o) (Some "base"%string) (Some "tool"%string) = Ret (Ok (r, eff)).
Proof.
  destruct (load_chain_loads (u_off o) "base" "tool" [jt; jf o] (u_off_tidy o) (u_off_connected o) (u_off_path o)) as (r & eff & L).
  - discriminate.
  - repeat apply Forall_cons; try apply Forall_nil; unfold supported; simpl; auto. right. split; auto. discriminate.
  - intros j H M. simpl in H. each; try discriminate. unfold unit3, dot; simpl; ring.
  - exists r, eff. split; auto.
    rewrite (from_urdf_runs (u_off o) _ _ "base" "tool" [jt; jf o] (u_off_tidy o) (u_off_acyclic o)); auto using u_off_path.
    + now rewrite L.
    + split; auto. unfold declared; simpl; auto.
    + reflexivity.
Qed.
Lemma u_off_mass o k : k = "base"%string \/ In k (map j_child [jt; jf o]) -> link_mass (u_off o) k pt.
Proof.
  intros H. exists i_unit, (fun r => r). split. { simpl in H |- *. each; auto. }
  split; [exact unit_describes|]. simpl. lra.
Qed.
Lemma u_off_M o r eff : load_chain (u_off o) "base" "tool" (map j_name [jt; jf o]) = Ok (r, eff) ->
  rM r = Some (map rows6 [E0; m6add E0 E0]).
Proof.
  intros L. destruct (load_chain_M _ _ _ _ _ _ (u_off_tidy o) (u_off_path o) L) as (s & i & Fs & Gi & ->).
  cbn [map fold_out] in Fs. rewrite (load_joint_eq _ _ jt (u_off_tidy o)) in Fs by (simpl; auto).
  replace (inert (u_off o) lstart jt) with (@Ok (option mat6) (Some E0)) in Fs
    by (unfold inert; cbn -[convert_inertial]; rewrite unit_convert; reflexivity).
  cbn [bind j_kind jt j_axis] in Fs. rewrite (load_joint_eq _ _ (jf o) (u_off_tidy o)) in Fs by (simpl; auto).
  match type of Fs with context [inert ?a ?b ?c] =>
    replace (inert a b c) with (@Ok (option mat6) (Some E0)) in Fs
      by (unfold inert; cbn -[convert_inertial next_R]; rewrite unit_convert; reflexivity) end.
  cbn [bind j_kind jf] in Fs. injection Fs as <-. injection Gi as <-. cbn -[convert_inertial next_R rows6 m6add].
  rewrite unit_convert. reflexivity.
Qed.
Example C68_ex : exists r eff, robot_from_urdf (u_off None) (Some "base"%string) (Some "tool"%string) = Ret (Ok (r, eff)) /\
  exists Ms, rM r = Some (map rows6 Ms) /\ Forall2 energy_matrix Ms [pt; pt ++ pt].
Proof.
  destruct (u_off_loads None) as (r & eff & L & E). exists r, eff. split; auto.
  exact (load_chain_masses _ _ _ _ _ _ (fun _ => pt) (u_off_tidy None) (u_off_path None) L (u_off_mass None)
    ltac:(intros j H K; simpl in H; each; [discriminate|reflexivity])).
Qed.
(** A mass behind a fixed joint is added as if the joint did not displace it. *)
Theorem C68_offset_refuted : exists u root tip js mass r eff, tidy u /\ path u root tip js /\
  robot_from_urdf u (Some root) (Some tip) = Ret (Ok (r, eff)) /\
  (forall k, k = root \/ In k (map j_child js) -> link_mass u k (mass k)) /\
  ~ exists Ms, rM r = Some (map rows6 Ms) /\ Forall2 energy_matrix Ms (body_masses mass root js).
Proof.
  set (o := Some (Upose (Some (V3 1 0 0)) None)). destruct (u_off_loads o) as (r & eff & L & E).
  exists (u_off o), "base"%string, "tool"%string, [jt; jf o], (fun _ => pt), r, eff.
  split; [apply u_off_tidy|]. split; [apply u_off_path|]. split; auto. split; [apply u_off_mass|].
  intros [Ms [A B]]. rewrite (u_off_M o r eff L) in A. injection A as A. apply (rows6_inj [E0; m6add E0 E0]) in A. subst Ms.
  inversion B as [|? ? ? ? _ B']; subst. inversion B' as [|? ? ? ? K _]; subst.
  specialize (K (V3 0 0 1) vzero). revert K.
  cbv [o jt jf body_masses moving j_kind j_child j_origin app map fst snd bsum origin_motion o_xyz o_rpy or0 energy2 E0 m6add dot6
    m6vec madd mzero I3 pt norm2 vadd mvec cross dot vzero hi3 lo3 b00 b01 b10 b11 vx vy vz m00 m01 m02 m10 m11 m12 m20 m21 m22]. lra.
Qed.
(** A link followed by a bare frame (a link without inertial element) is left out. *)
Definition jf1 := Ujoint "mount" "arm" "frame" Fixed None None None.
Definition jf2 := Ujoint "grip" "frame" "tool" Fixed None None None.
Definition u_frame := Urdf [("base", Some i_unit); ("arm", Some i_unit); ("frame", None); ("tool", Some i_unit)]%string [jt; jf1; jf2].
Definition m_frame (k : string) : body := if String.eqb k "frame" then [] else pt.
Theorem C68_frame_refuted : exists u root tip js mass r eff, tidy u /\ path u root tip js /\
  robot_from_urdf u (Some root) (Some tip) = Ret (Ok (r, eff)) /\
  (forall k, k = root \/ In k (map j_child js) -> link_mass u k (mass k) \/ In (k, None) (u_links u) /\ mass k = []) /\
  (forall j, In j js -> j_kind j = Fixed -> same_frame j) /\
  ~ exists Ms, rM r = Some (map rows6 Ms) /\ Forall2 energy_matrix Ms (body_masses mass root js).
Proof.
  assert (T : tidy u_frame) by (constructor; simpl; nodup).
  assert (A : acyclic u_frame).
  { exists (fun s => if String.eqb s "base" then 0 else if String.eqb s "arm" then 1 else if String.eqb s "frame" then 2 else 3)%nat.
    simpl. intros j H. each; simpl; lia. }
  assert (C : connected u_frame) by (intros j H; unfold declared; simpl in *; each; simpl; tauto).
  assert (Pj : path u_frame "base" "tool" [jt; jf1; jf2]).
  { apply (path_down u_frame "base" jf2 [jt; jf1]); [|simpl; auto|discriminate].
    apply (path_down u_frame "base" jf1 [jt]); [|simpl; auto|discriminate].
    apply (path_down u_frame "base" jt []); [|simpl; auto|discriminate]. constructor. }
  destruct (load_chain_loads u_frame "base" "tool" [jt; jf1; jf2] T C Pj) as (r & eff & L).
  { discriminate. }
  { repeat apply Forall_cons; try apply Forall_nil; unfold supported; simpl; auto. right. split; auto. discriminate. }
  { intros j H M. simpl in H. each; try discriminate. unfold unit3, dot; simpl; ring. }
  exists u_frame, "base"%string, "tool"%string, [jt; jf1; jf2], m_frame, r, eff.
  split; auto. split; auto. split.
  { rewrite (from_urdf_runs u_frame _ _ "base" "tool" [jt; jf1; jf2] T A); auto; [now rewrite L| |reflexivity].
    split; auto. unfold declared; simpl; auto. }
  split.
  { intros k H. assert (Y : forall k, In (k, Some i_unit) (u_links u_frame) -> m_frame k = pt -> link_mass u_frame k (m_frame k)).
    { intros k' I ->. exists i_unit, (fun r => r). split; auto. split; [exact unit_describes|]. simpl. lra. }
    simpl in H. each; [left|left|right|left]; try (apply Y; simpl; auto; fail). split; simpl; auto. }
  split. { intros j H K. simpl in H. each; try discriminate; reflexivity. }
  intros [Ms [AM B]]. destruct (load_chain_M _ _ _ _ _ _ T Pj L) as (s & i & Fs & Gi & EM).
  cbn [map fold_out] in Fs. rewrite (load_joint_eq _ _ jt T) in Fs by (simpl; auto).
  replace (inert u_frame lstart jt) with (@Ok (option mat6) (Some E0)) in Fs
    by (unfold inert; cbn -[convert_inertial]; rewrite unit_convert; reflexivity).
  cbn [bind j_kind jt j_axis] in Fs. rewrite (load_joint_eq _ _ jf1 T) in Fs by (simpl; auto).
  match type of Fs with context [inert ?a ?b ?c] => change (inert a b c) with (@Ok (option mat6) None) in Fs end.
  cbn [bind j_kind jf1] in Fs. rewrite (load_joint_eq _ _ jf2 T) in Fs by (simpl; auto).
  match type of Fs with context [inert ?a ?b ?c] => change (inert a b c) with (@Ok (option mat6) None) in Fs end.
  cbn [bind j_kind jf2] in Fs. injection Fs as <-. injection Gi as <-. rewrite EM in AM.
  cbn -[convert_inertial next_R rows6] in AM. rewrite unit_convert in AM. cbn -[rows6] in AM. injection AM as AM.
  apply (rows6_inj [E0; E0]) in AM. subst Ms.
  inversion B as [|? ? ? ? _ B']; subst. inversion B' as [|? ? ? ? K _]; subst.
  specialize (K vzero (V3 0 0 1)). revert K.
  unfold energy2, E0, dot6, m6vec, mzero, I3, m_frame, pt, norm2, vadd, mvec, cross, dot, vzero. simpl. lra.
Qed.
Print Assumptions C68_bodies.
Print Assumptions C68_offset_refuted.
Print Assumptions C68_frame_refuted.

(* ================= C69 ================= *)
Theorem C69_terminates : forall u ro to, tidy u -> acyclic u -> exists o, robot_from_urdf u ro to = Ret o.
Proof.
  intros u ro to T A. unfold robot_from_urdf. destruct (root_cases u ro) as [[root [-> _]]|[-> _]]; simpl; [|eauto].
  destruct (tip_links_spec u root T (keys [] (map fst (link_map u)))) as [[_ [l [_ H]]]|[ts [-> _]]].
  { destruct (get_chain_acyclic u root l A) as [o O]. congruence. }
  simpl. destruct (match to with Some t => Ok t | None => match ts with [t] => Ok t | _ => Err AssertionError end end) as [tip|e]; simpl; [|eauto].
  destruct (get_chain_acyclic u root tip A) as [[o|e] ->]; simpl; eauto.
Qed.
Example C69_ex : tidy u_ex /\ acyclic u_ex.
Proof. split; [exact u_ex_tidy|exact u_ex_acyclic]. Qed.
(** A branch off a cycle of links makes the loader walk round for ever, even if the
    wanted chain is elsewhere. *)
Definition jc (n a b : string) := Ujoint n a b Revolute (Some (V3 0 0 1)) None None.
Definition u_cycle := Urdf [("base", None); ("tool", None); ("a", None); ("b", None); ("c", None)]%string
  [jc "t" "base" "tool"; jc "x" "a" "b"; jc "y" "b" "a"; jc "z" "b" "c"].
Theorem C69_cycle_refuted : exists u js, tidy u /\ connected u /\ path u "base" "tool" js /\ Forall supported js /\
  robot_from_urdf u (Some "base"%string) (Some "tool"%string) = Hang /\
  forall fuel acc, climb u "base" fuel "c" acc = Hang.
Proof.
  assert (T : tidy u_cycle) by (constructor; simpl; nodup).
  exists u_cycle, [jc "t" "base" "tool"]. split; auto.
  split. { intros j H. unfold declared. simpl in *. each; simpl; tauto. }
  split. { apply (path_down u_cycle "base" (jc "t" "base" "tool") []); [constructor|simpl; auto|discriminate]. }
  split. { repeat apply Forall_cons; try apply Forall_nil. right. split; auto. discriminate. }
  split; [reflexivity|]. apply (climb_fuel u_cycle "base" "c" []). reflexivity.
Qed.
Print Assumptions C69_terminates.
Print Assumptions C69_cycle_refuted.
