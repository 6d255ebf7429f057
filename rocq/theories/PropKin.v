(** Properties C16-C26: transforms, robots, forward kinematics, Jacobian. *)
From Coq Require Import Reals ZArith List Bool Lra Lia String.
From Verif Require Import LinAlg RealAux Py ModelRot SpecRot FactsReal FactsLinAlg FactsRot FactsDeriv
  ModelTransform ModelRobot ModelKin SpecKin FactsKin FactsJac.
Import ListNotations.
Open Scope R_scope.

Ltac fa := repeat first [apply Forall_nil | apply Forall2_nil | apply Forall_cons | apply Forall2_cons].

(* ----- concrete objects for the examples ----- *)
Definition k1 : vec3 := V3 (2/3) (-1/3) (2/3).
Definition k2 : vec3 := V3 0 (3/5) (4/5).
Example k1_unit : unit3 k1. Proof. unfold unit3, k1, dot; simpl; lra. Qed.
Example k2_unit : unit3 k2. Proof. unfold unit3, k2, dot; simpl; lra. Qed.
Example ez_unit : unit3 ez. Proof. unfold unit3, ez, dot; simpl; lra. Qed.
Definition t_ex : transform := Tf (rot k1 1) (V3 1 2 3) (Some "world"%string) (Some "base"%string).
Definition u_ex : transform := Tf (rot k2 2) (V3 (-1) 0 5) (Some "flange"%string) None.
Example t_ex_rigid : rigid t_ex. Proof. apply rot_SO3, k1_unit. Qed.
Example u_ex_rigid : rigid u_ex. Proof. apply rot_SO3, k2_unit. Qed.
(** Three joints (rotary, prismatic, rotary) with limits, tool, flange and base. *)
Definition r_ex : robot :=
  Rb [ez; k1; k2] [V3 0 0 1; V3 1 0 0; V3 0 1 1; V3 2 0 1] [Rotary; Prismatic; Rotary]
     (Some [-3; 0; -1]) (Some [3; 2; 1]) None None None (Some (rot k1 3)) (Some (V3 0 0 (1/10)))
     None None None (Some u_ex) (Some t_ex).
Example r_ex_wf : wf_robot r_ex.
Proof.
  constructor; simpl; auto.
  - repeat constructor; auto using ez_unit, k1_unit, k2_unit.
  - intros l [= <-]; reflexivity.
  - intros l [= <-]; reflexivity.
Qed.
Example r_ex_aux : wf_aux r_ex.
Proof.
  constructor; simpl; auto using u_ex_rigid, t_ex_rigid.
  - split; discriminate.
  - intros A [= <-]. apply rot_SO3, k1_unit.
Qed.

(* ================= C16 ================= *)
Theorem C16_action : forall A B x,
  act (tmul A B) x = act A (act B x) /\ act identity_transform x = x /\
  (rigid A -> act (tinv A) (act A x) = x /\ act A (act (tinv A) x) = x).
Proof.
  intros A B x. split. exact (act_tmul A B x). split. exact (act_identity x). exact (act_tinv A x).
Qed.
Theorem C16_group : forall A B C,
  tmul (tmul A B) C = tmul A (tmul B C) /\
  same_motion (tmul identity_transform A) A /\ same_motion (tmul A identity_transform) A /\
  (rigid A -> same_motion (tmul A (tinv A)) identity_transform /\ same_motion (tmul (tinv A) A) identity_transform) /\
  (rigid A -> tinv (tinv A) = A) /\
  (rigid A -> rigid B -> tinv (tmul A B) = tmul (tinv B) (tinv A) /\ rigid (tmul A B) /\ rigid (tinv A)).
Proof.
  intros A B C. split. exact (tmul_assoc A B C). split. exact (tmul_id_l A). split. exact (tmul_id_r A).
  split. exact (fun H => conj (tmul_inv_r A H) (tmul_inv_l A H)). split. exact (tinv_tinv A).
  exact (fun H K => conj (tinv_tmul A B H K) (conj (rigid_tmul A B H K) (rigid_tinv A H))).
Qed.
(** Rigid transforms keep distances; the motion determines rotation and translation. *)
Theorem C16_isometry : forall A x y, rigid A -> norm (vsub (act A x) (act A y)) = norm (vsub x y).
Proof. exact act_dist. Qed.
Theorem C16_faithful : forall A B, (forall x, act A x = act B x) <-> same_motion A B.
Proof. intros A B. split. exact (act_inj A B). exact (proj1 (same_motion_act A B)). Qed.
Example C16_ex : rigid t_ex /\ rigid u_ex /\ ~ same_motion t_ex identity_transform.
Proof.
  split. apply t_ex_rigid. split. apply u_ex_rigid. intros [_ E]. simpl in E. inversion E. lra.
Qed.
(** The hypothesis on the rotation part matters: inv() transposes. *)
Example C16_needs_rotation : exists A x, act (tinv A) (act A x) <> x.
Proof.
  exists (Tf (mscale 2 I3) vzero None None), ex. unfold act, tinv; simpl. la_unfold. intros E. inversion E. lra.
Qed.
Print Assumptions C16_action.
Print Assumptions C16_group.
Print Assumptions C16_isometry.
Print Assumptions C16_faithful.

(* ================= C17 ================= *)
Theorem C17_names : forall A l,
  t_parent (fold_left tmul l A) = t_parent A /\ t_child (fold_left tmul l A) = t_child (last_of A l) /\
  t_parent (tinv A) = t_child A /\ t_child (tinv A) = t_parent A /\
  (forall x, act (fold_left tmul l A) x = act A (fold_right act x l)).
Proof.
  intros A l. destruct (fold_tmul_names A l) as [P C]. split. exact P. split. exact C.
  split. reflexivity. split. reflexivity. exact (fold_tmul_act A l).
Qed.
(** Names of a pose from fwdkin: the parent comes from the base; the child from the flange,
    unless a tool is present, which erases it. *)
Theorem C17_fwdkin_names : forall r theta b T, fwdkin r theta b = Ok T ->
  t_parent T = match rbase r with Some B => t_parent B | None => None end /\
  t_child T = match rRtool r, rptool r, rflange r with
              | Some _, Some _, _ => None | _, _, Some F => t_child F | _, _, _ => None end.
Proof.
  intros r theta b T E. unfold fwdkin in E. apply bind_ok in E. destruct E as (_ & _ & E).
  destruct (rP r); try discriminate. apply bind_ok in E. destruct E as (Rp & _ & E). injection E as <-.
  unfold apply_aux, tool_transform. destruct (rbase r), (rRtool r), (rptool r), (rflange r); split; reflexivity.
Qed.
Example C17_ex : t_parent (fold_left tmul [u_ex; tinv u_ex] t_ex) = Some "world"%string /\
                 t_child (fold_left tmul [u_ex; tinv u_ex] t_ex) = Some "flange"%string.
Proof. split; reflexivity. Qed.
Print Assumptions C17_names.
Print Assumptions C17_fwdkin_names.

(* ================= C18 ================= *)
Theorem C18_eq_is_closeness : forall A B,
  (teq A B = true <-> Forall2 (np_close (1/1000000) (1/100000000)) (entries A) (entries B)) /\
  (forall tol, tisclose A B tol = true <-> Forall2 (np_close (1/100000) tol) (entries A) (entries B)).
Proof. intros A B. split. exact (m_v_isclose_iff _ _ A B). exact (fun tol => m_v_isclose_iff _ tol A B). Qed.
(** Reflexive, blind to names, and implied by small entrywise differences. *)
Theorem C18_eq_laws : forall A B,
  teq A A = true /\ (same_motion A B -> teq A B = true) /\
  (forall tol, Forall2 (fun a b => Rabs (a - b) <= tol) (entries A) (entries B) -> tisclose A B tol = true) /\
  (forall tol, rigid B -> tisclose A B tol = true -> mat_close (tol + 1/100000) (tR A) (tR B)).
Proof.
  intros A B.
  assert (Rf : forall X Y, same_motion X Y -> teq X Y = true).
  { intros X Y [E F]. apply m_v_isclose_iff. unfold entries. rewrite E, F.
    assert (Z : forall a, np_close (1/1000000) (1/100000000) a a).
    { intros a. unfold np_close. replace (a - a) with 0 by ring. rewrite Rabs_R0. pose proof (Rabs_pos a). lra. }
    repeat (apply Forall2_cons; [apply Z|]); apply Forall2_nil. }
  split. apply Rf; split; reflexivity. split. auto. split.
  - intros tol F. apply m_v_isclose_iff. revert F. generalize (entries A), (entries B).
    induction 1; constructor; auto. unfold np_close. pose proof (Rabs_pos y). lra.
  - intros tol HB H. apply m_v_isclose_iff in H. unfold entries in H.
    repeat match goal with H : Forall2 _ (_ :: _) (_ :: _) |- _ => inversion H; clear H; subst end.
    unfold np_close in *.
    destruct (SO3_eqs _ HB) as (Q1 & _). destruct Q1 as (S1 & S2 & S3).
    assert (K : forall a b c, a * a + b * b + c * c = 1 -> Rabs a <= 1 /\ Rabs b <= 1 /\ Rabs c <= 1).
    { intros a b c E. repeat split; apply Rabs_le_iff; nra. }
    apply K in S1, S2, S3. repeat split; lra.
Qed.
(** == is neither symmetric nor transitive. *)
Theorem C18_symmetric_refuted : exists A B, rigid A /\ rigid B /\ teq A B = true /\ teq B A = false.
Proof.
  exists (Tf I3 (V3 (1000000 - 1 - 1/100000000) 0 0) None None), (Tf I3 (V3 1000000 0 0) None None).
  split. apply SO3_I. split. apply SO3_I.
  assert (C0 : np_close (1/1000000) (1/100000000) 0 0).
  { unfold np_close. replace (0 - 0) with 0 by ring. rewrite Rabs_R0. lra. }
  assert (C1 : np_close (1/1000000) (1/100000000) 1 1).
  { unfold np_close. replace (1 - 1) with 0 by ring. rewrite Rabs_R0, Rabs_R1. lra. }
  split.
  - apply m_v_isclose_iff. unfold entries; simpl. repeat (apply Forall2_cons; [try assumption|]); try apply Forall2_nil.
    unfold np_close. rewrite Rabs_left by lra. rewrite Rabs_right by lra. lra.
  - apply not_true_iff_false. intros H. apply m_v_isclose_iff in H. unfold entries in H; simpl in H.
    repeat match goal with H : Forall2 _ (_ :: _) (_ :: _) |- _ => inversion H; clear H; subst end.
    match goal with H : np_close _ _ 1000000 _ |- _ => unfold np_close in H; rewrite !Rabs_right in H; lra end.
Qed.
Theorem C18_transitive_refuted : exists A B C, rigid A /\ rigid B /\ rigid C /\
  teq A B = true /\ teq B C = true /\ teq A C = false.
Proof.
  exists (Tf I3 vzero None None), (Tf I3 (V3 (1/100000000) 0 0) None None), (Tf I3 (V3 (2/100000000) 0 0) None None).
  do 3 (split; [apply SO3_I|]).
  assert (C0 : np_close (1/1000000) (1/100000000) 0 0).
  { unfold np_close. replace (0 - 0) with 0 by ring. rewrite Rabs_R0. lra. }
  assert (C1 : np_close (1/1000000) (1/100000000) 1 1).
  { unfold np_close. replace (1 - 1) with 0 by ring. rewrite Rabs_R0, Rabs_R1. lra. }
  split; [|split].
  - apply m_v_isclose_iff. unfold entries; simpl. repeat (apply Forall2_cons; [try assumption|]); try apply Forall2_nil.
    unfold np_close. rewrite Rabs_left by lra. rewrite Rabs_right by lra. lra.
  - apply m_v_isclose_iff. unfold entries; simpl. repeat (apply Forall2_cons; [try assumption|]); try apply Forall2_nil.
    unfold np_close. rewrite Rabs_left by lra. rewrite Rabs_right by lra. lra.
  - apply not_true_iff_false. intros H. apply m_v_isclose_iff in H. unfold entries in H; simpl in H.
    repeat match goal with H : Forall2 _ (_ :: _) (_ :: _) |- _ => inversion H; clear H; subst end.
    match goal with H : np_close _ _ 0 (2/100000000) |- _ => unfold np_close in H; rewrite (Rabs_left (0 - _)) in H by lra; rewrite Rabs_right in H by lra; lra end.
Qed.
(** isclose(tol) accepts positions that differ by ten times tol. *)
Theorem C18_isclose_tol_refuted : exists A B, rigid A /\ rigid B /\
  tisclose A B (1/1000000) = true /\ norm (vsub (tp A) (tp B)) = 10 * (1/1000000).
Proof.
  exists (Tf I3 (V3 (1 - 1/100000) 0 0) None None), (Tf I3 ex None None).
  split. apply SO3_I. split. apply SO3_I. split.
  - apply m_v_isclose_iff. unfold entries; simpl.
    assert (C0 : np_close (1/100000) (1/1000000) 0 0).
    { unfold np_close. replace (0 - 0) with 0 by ring. rewrite Rabs_R0. lra. }
    assert (C1 : np_close (1/100000) (1/1000000) 1 1).
    { unfold np_close. replace (1 - 1) with 0 by ring. rewrite Rabs_R0, Rabs_R1. lra. }
    repeat (apply Forall2_cons; [try assumption|]); try apply Forall2_nil. unfold np_close. rewrite Rabs_left by lra. rewrite Rabs_R1. lra.
  - unfold norm. replace (norm2 _) with ((10 * (1/1000000)) * (10 * (1/1000000))).
    + apply sqrt_square. lra.
    + unfold norm2, dot; simpl. lra.
Qed.
Example C18_ex : teq t_ex (Tf (tR t_ex) (tp t_ex) None (Some "other"%string)) = true /\ teq t_ex u_ex = false.
Proof.
  split.
  - apply (proj1 (proj2 (C18_eq_laws _ _))). split; reflexivity.
  - apply not_true_iff_false. intros H. apply m_v_isclose_iff in H. unfold entries in H.
    repeat match goal with H : Forall2 _ (_ :: _) (_ :: _) |- _ => inversion H; clear H; subst end.
    change (vx (tp t_ex)) with 1 in *. change (vx (tp u_ex)) with (-1) in *.
    match goal with H : np_close _ _ 1 (-1) |- _ => unfold np_close in H;
      replace (1 - -1) with 2 in H by ring; rewrite (Rabs_left (-1)) in H by lra; rewrite Rabs_right in H by lra; lra end.
Qed.
Print Assumptions C18_eq_is_closeness.
Print Assumptions C18_eq_laws.
Print Assumptions C18_symmetric_refuted.
Print Assumptions C18_transitive_refuted.
Print Assumptions C18_isclose_tol_refuted.

(* ================= C19 ================= *)
Theorem C19_accepts : forall a, rectangular (aH a) -> rectangular (aP a) ->
  (valid_args a <-> exists r, Robot_init a = Ok r) /\
  (~ valid_args a <-> Robot_init a = Err AssertionError).
Proof.
  intros a RH RP. destruct (Robot_init_cases a RH RP) as [[V [r E]]|[V E]]; split; split; intros H; auto; try tauto; try congruence.
  - exists r; exact E.
  - destruct H. congruence.
Qed.
Theorem C19_stores : forall a r, Robot_init a = Ok r ->
  map (fun v => [vx v; vy v; vz v]) (rH r) = columns (aH a) /\
  map (fun v => [vx v; vy v; vz v]) (rP r) = columns (aP a) /\
  map jcode (rtype r) = atype a /\
  (rlower r, rupper r) = match alower a, aupper a with Some l, Some u => (Some l, Some u) | _, _ => (None, None) end /\
  (rRtool r, rptool r) = match aRtool a, aptool a with Some A, Some p => (Some A, Some p) | _, _ => (None, None) end /\
  rvel r = avel a /\ racc r = aacc a /\ rM r = aM a /\ rnames r = anames a /\ rroot r = aroot a /\ rtip r = atip a /\
  rflange r = aflange a /\ rbase r = abase a.
Proof. exact Robot_init_stored. Qed.
(** What the kinematics theorems below assume is what the constructor ensures. *)
Theorem C19_wf : forall a r, rectangular (aH a) -> rectangular (aP a) -> Robot_init a = Ok r ->
  Forall unit3 (rH r) -> wf_robot r /\ (rRtool r = None <-> rptool r = None).
Proof. exact Robot_init_wf. Qed.
Definition args_ex : robot_args :=
  Ra (Cols 3 [[0;0;1]; [2/3;-1/3;2/3]]) (Cols 3 [[0;0;1]; [1;0;0]; [0;1;1]]) [0;1]%Z
     (Some [-1;0]) None None None None None (Some vzero) None None None None None.
Example C19_ex : rectangular (aH args_ex) /\ rectangular (aP args_ex) /\ valid_args args_ex.
Proof.
  split; [repeat constructor|]. split; [repeat constructor|]. constructor; simpl; auto; try discriminate.
  - repeat constructor; lia.
  - assert (S : forall a b c, a * a + b * b + c * c = 1 -> Rabs (sqrt (a * a + (b * b + (c * c + 0))) - 1) <= 1 / 100000000 + 1 / 100000).
    { intros a b c E. replace (a * a + (b * b + (c * c + 0))) with 1 by lra. rewrite sqrt_1.
      replace (1 - 1) with 0 by ring. rewrite Rabs_R0. lra. }
    fa; apply S; lra.
Qed.
(** A column of norm 2 is refused. *)
Example C19_ex_bad : Robot_init (Ra (Cols 3 [[0;0;2]]) (Cols 3 [[0;0;1]; [1;0;0]]) [0]%Z
     None None None None None None None None None None None None) = Err AssertionError.
Proof.
  apply (proj1 (proj2 (C19_accepts (Ra (Cols 3 [[0;0;2]]) (Cols 3 [[0;0;1]; [1;0;0]]) [0]%Z
     None None None None None None None None None None None None) ltac:(repeat constructor) ltac:(repeat constructor)))).
  intros V. pose proof (va_unit _ V) as F. simpl in F. inversion F as [|? ? K _]; subst. simpl in K.
  replace (0 * 0 + (0 * 0 + (2 * 2 + 0))) with (2 * 2) in K by ring. rewrite sqrt_square in K by lra.
  rewrite Rabs_right in K by lra. lra.
Qed.
Print Assumptions C19_accepts.
Print Assumptions C19_stores.
Print Assumptions C19_wf.

(* ================= C20 ================= *)
Theorem C20_fwdkin_chain : forall r theta, wf_robot r -> List.length theta = List.length (rtype r) ->
  within_limits r theta ->
  exists T, fwdkin r theta false = Ok T /\ fwdkin r theta true = Ok T /\ forall x, act T x = robot_point r theta x.
Proof.
  intros r theta W L I. exists (apply_aux r (bare_pose r theta)).
  rewrite (proj1 (fwdkin_limits r theta W L) I). split; [|split].
  1,2: exact (fwdkin_ignore r theta W (Nat.eq_le_incl _ _ (eq_sym L))).
  intros x. exact (act_fwdkin r theta x W).
Qed.
Theorem C20_fwdkin_ignore : forall r theta, wf_robot r -> (List.length (rtype r) <= List.length theta)%nat ->
  exists T, fwdkin r theta true = Ok T /\ forall x, act T x = robot_point r theta x.
Proof.
  intros r theta W L. exists (apply_aux r (bare_pose r theta)).
  split. exact (fwdkin_ignore r theta W L). intros x. exact (act_fwdkin r theta x W).
Qed.
(** A joint vector that is too short is never accepted. *)
Theorem C20_short : forall r theta b T, (List.length theta < List.length (rtype r))%nat -> fwdkin r theta b <> Ok T.
Proof. exact fwdkin_short. Qed.
Example C20_ex : wf_robot r_ex /\ List.length [1; 1/2; -1/3] = List.length (rtype r_ex) /\ within_limits r_ex [1; 1/2; -1/3].
Proof. split. apply r_ex_wf. split. reflexivity. split; fa; lra. Qed.
(** One rotary joint: a quarter turn about z with a unit link along x ends on the y axis. *)
Example C20_ex2 : robot_point (Rb [ez] [vzero; ex] [Rotary] None None None None None None None None None None None None) [PI/2] vzero = ey.
Proof.
  unfold robot_point; simpl. unfold rotate. rewrite sin_PI2, cos_PI2. unfold act_tool; simpl. la_unfold. f_equal; ring.
Qed.
Print Assumptions C20_fwdkin_chain.
Print Assumptions C20_fwdkin_ignore.
Print Assumptions C20_short.

(* ================= C21 ================= *)
Theorem C21_fwdkin_rigid : forall r theta b T, wf_robot r -> wf_aux r -> fwdkin r theta b = Ok T -> rigid T.
Proof.
  intros r theta b T W WA E.
  destruct (le_lt_dec (List.length (rtype r)) (List.length theta)) as [L|L].
  - assert (E' : fwdkin r theta true = Ok T).
    { destruct b; auto. unfold fwdkin in *. destruct (check_limits r theta false); [exact E|discriminate]. }
    rewrite (fwdkin_ignore r theta W L) in E'. injection E' as <-.
    exact (rigid_apply_aux r _ WA (rigid_bare r theta W)).
  - destruct (fwdkin_short r theta b T L E).
Qed.
Example C21_ex : exists T, wf_robot r_ex /\ wf_aux r_ex /\ fwdkin r_ex [1; 1/2; -1/3] false = Ok T.
Proof.
  destruct (C20_fwdkin_chain r_ex [1; 1/2; -1/3]) as (T & E & _); try apply C20_ex.
  exists T. auto using r_ex_wf, r_ex_aux.
Qed.
Print Assumptions C21_fwdkin_rigid.

(* ================= C22 ================= *)
Theorem C22_limits : forall r theta, wf_robot r -> List.length theta = List.length (rtype r) ->
  (within_limits r theta -> fwdkin r theta false = fwdkin r theta true /\ robotjacobian r theta false = robotjacobian r theta true) /\
  (~ within_limits r theta -> fwdkin r theta false = Err AssertionError /\ robotjacobian r theta false = Err AssertionError).
Proof.
  intros r theta W L. destruct (fwdkin_limits r theta W L) as [A B], (jacobian_limits r theta W L) as [C D].
  exact (conj (fun I => conj (A I) (C I)) (fun N => conj (B N) (D N))).
Qed.
Theorem C22_limits_irrelevant : forall r theta l u,
  fwdkin (with_limits r l u) theta true = fwdkin r theta true /\
  robotjacobian (with_limits r l u) theta true = robotjacobian r theta true /\
  (rlower r = None \/ rupper r = None ->
   fwdkin r theta false = fwdkin r theta true /\ robotjacobian r theta false = robotjacobian r theta true).
Proof.
  intros. split. exact (fwdkin_limits_irrelevant r l u theta). split. exact (jacobian_limits_irrelevant r l u theta).
  exact (fun H => conj (fwdkin_nolimits r theta H) (jacobian_nolimits r theta H)).
Qed.
(** With limits and at least two joints, only a joint vector of the right length passes
    (numpy broadcasting lets other lengths through for fewer joints). *)
Theorem C22_length : forall r theta T l u, wf_robot r -> rlower r = Some l -> rupper r = Some u ->
  (2 <= List.length (rtype r))%nat -> fwdkin r theta false = Ok T -> List.length theta = List.length (rtype r).
Proof. exact fwdkin_length. Qed.
Example C22_ex : within_limits r_ex [3; 0; -1] /\ ~ within_limits r_ex [3; 0; -1 - 1/1000000].
Proof.
  split.
  - split; fa; lra.
  - intros [H _]. simpl in H. repeat match goal with H : Forall2 _ (_ :: _) (_ :: _) |- _ => inversion H; clear H; subst end. lra.
Qed.
Print Assumptions C22_limits.
Print Assumptions C22_limits_irrelevant.
Print Assumptions C22_length.

(* ================= C23 ================= *)
Theorem C23_aux_action : forall r T x,
  act (apply_aux r T) x = act_opt (rbase r) (act T (act_opt (rflange r) (act_tool r x))).
Proof. exact act_apply_aux. Qed.
Theorem C23_aux_inverse : forall r T, wf_aux r ->
  same_motion (unapply_aux r (apply_aux r T)) T /\ same_motion (apply_aux r (unapply_aux r T)) T /\
  (rigid T -> rigid (apply_aux r T) /\ rigid (unapply_aux r T)).
Proof.
  intros r T W. split. exact (unapply_apply r T W). split. exact (apply_unapply r T W).
  exact (fun H => conj (rigid_apply_aux r T W H) (rigid_unapply_aux r T W H)).
Qed.
(** fwdkin is the bare robot's pose with the auxiliary transforms applied, and
    unapply recovers the bare pose. *)
Definition bare (r : robot) : robot :=
  Rb (rH r) (rP r) (rtype r) (rlower r) (rupper r) (rvel r) (racc r) (rM r) None None (rnames r) (rroot r) (rtip r) None None.
Theorem C23_fwdkin_aux : forall r theta b T, fwdkin r theta b = Ok T ->
  exists T0, fwdkin (bare r) theta b = Ok T0 /\ T = apply_aux r T0 /\ (wf_aux r -> same_motion (unapply_aux r T) T0).
Proof.
  intros r theta b T E. unfold fwdkin in *. change (check_limits (bare r) theta b) with (check_limits r theta b).
  destruct (check_limits r theta b); [|discriminate]. cbn [bind] in *. change (rP (bare r)) with (rP r).
  destruct (rP r); [discriminate|]. change (rtype (bare r)) with (rtype r). change (rH (bare r)) with (rH r).
  destruct (fk_loop _ _ _ _ _ _); [|discriminate]. cbn [bind] in *. injection E as <-.
  eexists. split. reflexivity. split. reflexivity. exact (unapply_apply r _).
Qed.
Example C23_ex : wf_aux r_ex /\ ~ same_motion (apply_aux r_ex identity_transform) identity_transform.
Proof.
  split. apply r_ex_aux. intros E. assert (K := proj1 (same_motion_act _ _) E).
  assert (D : forall x, norm (vsub (act (apply_aux r_ex identity_transform) x) (act t_ex x)) = norm (vsub (act u_ex (act_tool r_ex x)) x)).
  { intros x. rewrite act_apply_aux, act_identity. simpl. apply act_dist, t_ex_rigid. }
  (* the images of the origin under the base and under flange-with-tool are further apart than they would be *)
  specialize (D vzero). rewrite K, act_identity in D. revert D. unfold act, act_tool. simpl.
  rewrite !mvec_vzero, !vadd_0_l. intros D.
  assert (D2 : dot (vsub vzero (V3 1 2 3)) (vsub vzero (V3 1 2 3)) =
     dot (vsub (vadd (mvec (rot k2 2) (V3 0 0 (1/10))) (V3 (-1) 0 5)) vzero) (vsub (vadd (mvec (rot k2 2) (V3 0 0 (1/10))) (V3 (-1) 0 5)) vzero)).
  { rewrite <- !norm_sq, D. reflexivity. }
  assert (N : dot (mvec (rot k2 2) (V3 0 0 (1/10))) (mvec (rot k2 2) (V3 0 0 (1/10))) = 1/100).
  { rewrite SO3_dot by apply rot_SO3, k2_unit. unfold dot; simpl. lra. }
  revert D2 N. generalize (mvec (rot k2 2) (V3 0 0 (1/10))). intros [a b c]. la_unfold. intros D2 N.
  assert (a * a <= 1/100 /\ c * c <= 1/100) as [A1 C1] by (split; nra).
  assert (a <= 1/10) by nra. assert (- (1/10) <= c) by nra. lra.
Qed.
Print Assumptions C23_aux_action.
Print Assumptions C23_aux_inverse.
Print Assumptions C23_fwdkin_aux.

(* ================= C24 ================= *)
Theorem C24_jacobian_derivative : forall r qs qd s0, wf_robot r -> wf_aux r -> Forall plain_type (rtype r) ->
  (List.length (rtype r) <= List.length qs)%nat ->
  Forall2 (fun f d => derivable_pt_lim f s0 d) qs qd ->
  exists J T,
    robotjacobian r (at_time qs s0) true = Ok J /\
    (forall s, fwdkin r (at_time qs s) true = Ok (T s)) /\
    vderiv (fun s => tp (T s)) s0 (lo3 (jac_apply J qd)) /\
    mderiv (fun s => tR (T s)) s0 (mmul (cross_matrix (hi3 (jac_apply J qd))) (tR (T s0))).
Proof. exact jacobian_deriv. Qed.
Example C24_ex : wf_robot r_ex /\ wf_aux r_ex /\ Forall plain_type (rtype r_ex) /\
  Forall2 (fun f d => derivable_pt_lim f 1 d) [(fun s => s); (fun s => s * s); sin] [1; 2; cos 1].
Proof.
  split. apply r_ex_wf. split. apply r_ex_aux. split. { fa; unfold plain_type; auto. }
  constructor. apply derivable_pt_lim_id. constructor.
  { eapply dpl_eq. apply (dpl_mult (fun s => s) (fun s => s)); apply dpl_id. cbv beta. ring. }
  constructor. apply derivable_pt_lim_sin. constructor.
Qed.
Print Assumptions C24_jacobian_derivative.

(* ================= C25 ================= *)
Theorem C25_columns : forall r theta, wf_robot r -> (List.length (rtype r) <= List.length theta)%nat ->
  Forall (fun j => j <> Mobile3) (rtype r) ->
  exists J, robotjacobian r theta true = Ok J /\ List.length J = List.length (rtype r).
Proof.
  intros r theta W L N. pose proof (jacobian_count r theta W L) as H.
  rewrite (column_count_plain _ N) in H. exact H.
Qed.
Theorem C25_columns_mobile : forall r theta, wf_robot r -> (List.length (rtype r) <= List.length theta)%nat ->
  match column_count (rtype r) with
  | Some n => exists J, robotjacobian r theta true = Ok J /\ List.length J = n
  | None => robotjacobian r theta true = Err IndexError
  end.
Proof. exact jacobian_count. Qed.
Definition mobile_robot (ty : list jtype) : robot :=
  Rb (repeat ez (List.length ty)) (repeat ex (S (List.length ty))) ty None None None None None None None None None None None None.
Example mobile_wf ty : wf_robot (mobile_robot ty).
Proof.
  constructor; simpl; rewrite ?repeat_length; auto; try discriminate.
  apply Forall_forall. intros h I. apply repeat_spec in I. subst. apply ez_unit.
Qed.
(** A mobile base loses a column. *)
Theorem C25_one_column_per_joint_refuted : exists r theta J, wf_robot r /\ List.length theta = List.length (rtype r) /\
  robotjacobian r theta false = Ok J /\ List.length J <> List.length (rtype r).
Proof.
  exists (mobile_robot [Mobile3; Prismatic; Mobile2]), [0; 0; 0].
  pose proof (jacobian_count (mobile_robot [Mobile3; Prismatic; Mobile2]) [0;0;0] (mobile_wf _) (le_n _)) as H.
  simpl in H. destruct H as (J & E & L). exists J. split. apply mobile_wf. split. reflexivity.
  split. exact E. simpl. rewrite L. discriminate.
Qed.
(** A robot ending in a type 3 joint has a pose but no Jacobian. *)
Theorem C25_trailing_mobile_refuted : exists r theta T, wf_robot r /\ fwdkin r theta false = Ok T /\
  robotjacobian r theta false = Err IndexError.
Proof.
  exists (mobile_robot [Rotary; Mobile3]), [0; 0]. eexists. split. apply mobile_wf. split; reflexivity.
Qed.
(** A lone type 2 joint turns the robot, but its Jacobian column is zero. *)
Theorem C25_type2_column_refuted : exists r theta theta' T T', wf_robot r /\
  (forall x, robotjacobian r [x] false = Ok [V6 vzero vzero]) /\
  fwdkin r theta false = Ok T /\ fwdkin r theta' false = Ok T' /\ tp T <> tp T'.
Proof.
  exists (mobile_robot [Mobile2]), [0], [PI]. do 2 eexists. split. apply mobile_wf.
  split. { intros x. reflexivity. }
  split. reflexivity. split. reflexivity. cbn [tp apply_aux rbase rflange tool_transform rRtool rptool mobile_robot rP].
  simpl. rewrite rot_0. unfold rot. rewrite sin_PI, cos_PI. unfold hat. la_unfold. intros E. inversion E. lra.
Qed.
Example C25_ex : wf_robot (mobile_robot [Rotary; Mobile3; Prismatic; Mobile2; Rotary]) /\
  column_count [Rotary; Mobile3; Prismatic; Mobile2; Rotary] = Some 4%nat.
Proof. split. apply mobile_wf. reflexivity. Qed.
Print Assumptions C25_columns.
Print Assumptions C25_columns_mobile.
Print Assumptions C25_one_column_per_joint_refuted.
Print Assumptions C25_trailing_mobile_refuted.
Print Assumptions C25_type2_column_refuted.

(* ================= C26 ================= *)
Theorem C26_whole_turns : forall r a b, same_turns (rtype r) a b ->
  fwdkin r a true = fwdkin r b true /\ robotjacobian r a true = robotjacobian r b true.
Proof. exact (fun r a b S => conj (fwdkin_turns r a b S) (jacobian_turns r a b S)). Qed.
Example C26_ex : same_turns (rtype r_ex) [1; 1/2; -1/3] [1 + 2 * PI; 1/2; -1/3 - 4 * PI].
Proof.
  simpl. apply st_turn; auto. { exists (-1)%Z. simpl. lra. }
  apply st_same. apply st_turn; auto. { exists 2%Z. simpl. lra. }
  apply st_nil.
Qed.
Print Assumptions C26_whole_turns.
