(** Facts about transforms, forward kinematics and the Jacobian. *)
From Coq Require Import Reals ZArith List Bool Lra Lia String.
From Verif Require Import LinAlg RealAux Py ModelRot SpecRot FactsReal FactsLinAlg FactsRot FactsDeriv
  ModelTransform ModelRobot ModelKin SpecKin.
Import ListNotations.
Open Scope R_scope.

(* ---------- transforms ---------- *)
Ltac v_ring := repeat match goal with
  | |- context [mvec ?A ?v] => generalize (mvec A v); intro
  | |- context [tp ?A] => generalize (tp A); intro
  | |- context [rotate ?a ?b ?c] => generalize (rotate a b c); intro
  | |- context [chain ?a ?b ?c ?d ?e] => generalize (chain a b c d e); intro end; la_ring.
Lemma transform_eq A B : tR A = tR B -> tp A = tp B -> t_parent A = t_parent B -> t_child A = t_child B -> A = B.
Proof. destruct A, B; simpl; intros; subst; reflexivity. Qed.
Lemma act_tmul A B x : act (tmul A B) x = act A (act B x).
Proof. unfold act, tmul; simpl. rewrite mvec_mmul, mvec_vadd. v_ring. Qed.
Lemma act_inj A B : (forall x, act A x = act B x) -> same_motion A B.
Proof.
  intros H. assert (Ep : tp A = tp B).
  { specialize (H vzero). unfold act in H. rewrite !mvec_vzero, !vadd_0_l in H. auto. }
  split; auto. apply mvec_ext. intros v. specialize (H v). unfold act in H. rewrite Ep in H.
  rewrite <- (vadd_vsub (mvec (tR A) v) (tp B)), H, vadd_vsub. reflexivity.
Qed.
Lemma tmul_assoc A B C : tmul (tmul A B) C = tmul A (tmul B C).
Proof.
  apply transform_eq; simpl; auto.
  - apply mmul_assoc.
  - rewrite mvec_mmul, mvec_vadd. v_ring.
Qed.
Lemma act_identity x : act identity_transform x = x.
Proof. unfold act; simpl. rewrite mvec_I. v_ring. Qed.
Lemma tmul_id_l A : same_motion (tmul identity_transform A) A.
Proof. split; simpl. apply mmul_I_l. rewrite mvec_I. v_ring. Qed.
Lemma tmul_id_r A : same_motion (tmul A identity_transform) A.
Proof. split; simpl. apply mmul_I_r. rewrite mvec_vzero. v_ring. Qed.
Lemma tmul_inv_r A : rigid A -> same_motion (tmul A (tinv A)) identity_transform.
Proof.
  intros H. split; simpl. apply SO3_mul_T; auto.
  rewrite mvec_vneg, SO3_vec_T by auto. v_ring.
Qed.
Lemma tmul_inv_l A : rigid A -> same_motion (tmul (tinv A) A) identity_transform.
Proof.
  intros H. split; simpl. apply SO3_T_mul; auto. v_ring.
Qed.
Lemma rigid_tmul A B : rigid A -> rigid B -> rigid (tmul A B).
Proof. apply SO3_mmul. Qed.
Lemma rigid_tinv A : rigid A -> rigid (tinv A).
Proof. apply SO3_T. Qed.
Lemma tinv_tinv A : rigid A -> tinv (tinv A) = A.
Proof.
  intros H. apply transform_eq; simpl; auto. apply mT_mT.
  rewrite mT_mT, mvec_vneg, SO3_vec_T by auto. apply vneg_vneg.
Qed.
Lemma tinv_tmul A B : rigid A -> rigid B -> tinv (tmul A B) = tmul (tinv B) (tinv A).
Proof.
  intros Ha Hb. apply transform_eq; simpl; auto. apply mT_mmul.
  rewrite mT_mmul, mvec_mmul, mvec_vadd, SO3_T_vec, !mvec_vadd, mvec_vneg by auto. v_ring.
Qed.
Lemma act_tinv A x : rigid A -> act (tinv A) (act A x) = x /\ act A (act (tinv A) x) = x.
Proof.
  intros H. unfold act; simpl. split.
  - rewrite mvec_vadd, SO3_T_vec by auto. v_ring.
  - rewrite mvec_vadd, mvec_vneg, !SO3_vec_T by auto. v_ring.
Qed.
Lemma act_dist A x y : rigid A -> norm (vsub (act A x) (act A y)) = norm (vsub x y).
Proof.
  intros H. unfold act.
  replace (vsub _ _) with (mvec (tR A) (vsub x y)) by (rewrite mvec_vsub; v_ring).
  apply SO3_norm; auto.
Qed.

Lemma fold_tmul_names A l : t_parent (fold_left tmul l A) = t_parent A /\
  t_child (fold_left tmul l A) = t_child (last_of A l).
Proof.
  revert A. induction l as [|B l IH]; intros A; simpl; auto.
  destruct (IH (tmul A B)) as [-> E]. split; auto. rewrite E.
  destruct l; simpl; auto.
Qed.
Lemma fold_tmul_act A l x : act (fold_left tmul l A) x = act A (fold_right act x l).
Proof.
  revert A. induction l as [|B l IH]; intros A; simpl; auto. rewrite IH, act_tmul. reflexivity.
Qed.

Lemma isclose_iff rtol atol a b : isclose rtol atol a b = true <-> np_close rtol atol a b.
Proof.
  unfold isclose, np_close. match goal with |- context [Rleb ?a ?b] => rcase (Rleb a b) end; split; intros; auto; try discriminate; lra.
Qed.
Lemma m_v_isclose_iff rtol atol A B :
  (m_isclose rtol atol (tR A) (tR B) && v_isclose rtol atol (tp A) (tp B))%bool = true <->
  Forall2 (np_close rtol atol) (entries A) (entries B).
Proof.
  unfold m_isclose, v_isclose. rewrite !andb_true_iff, !isclose_iff. unfold entries. split.
  - intuition (repeat (constructor; auto)).
  - intros H.
    repeat match goal with H : Forall2 _ (_ :: _) (_ :: _) |- _ => inversion H; clear H; subst end. tauto.
Qed.

(* ---------- forward kinematics ---------- *)
(** Rotation part of a chain. *)
Fixpoint cR (ty : list jtype) (H : list vec3) (P : list vec3) (theta : list R) : mat3 :=
  match ty, H, P, theta with
  | j :: ty', h :: H', p :: P', t :: theta' =>
      match j with
      | Rotary | Mobile2 => mmul (rot h t) (cR ty' H' P' theta')
      | Prismatic | Mobile3 => cR ty' H' P' theta'
      end
  | _, _, _, _ => I3
  end.

Lemma cR_SO3 ty : forall H P theta, Forall unit3 H -> is_SO3 (cR ty H P theta).
Proof.
  induction ty as [|j ty IH]; intros H P theta U; simpl; [apply SO3_I|].
  destruct H as [|h H]; [apply SO3_I|]. destruct P as [|p P]; [apply SO3_I|].
  destruct theta as [|t theta]; [apply SO3_I|]. inversion U; subst.
  destruct j; auto using SO3_mmul, rot_SO3.
Qed.

Lemma chain_affine ty : forall H P theta x, Forall unit3 H ->
  chain ty H P theta x = vadd (mvec (cR ty H P theta) x) (chain ty H P theta vzero).
Proof.
  induction ty as [|j ty IH]; intros H P theta x U; simpl; [rewrite mvec_I; v_ring|].
  destruct H as [|h H]; [rewrite mvec_I; v_ring|]. destruct P as [|p P]; [rewrite mvec_I; v_ring|].
  destruct theta as [|t theta]; [rewrite mvec_I; v_ring|]. inversion U; subst.
  rewrite (IH H P theta x) by auto.
  destruct j; unfold joint_motion; rewrite <- ?rot_rotate by auto; rewrite ?mvec_mmul, ?mvec_vadd; v_ring.
Qed.

Lemma fk_loop_eq ty : forall H P theta A p,
  List.length H = List.length ty -> List.length P = List.length ty -> (List.length ty <= List.length theta)%nat ->
  Forall unit3 H ->
  fk_loop ty H P theta A p = Ok (mmul A (cR ty H P theta), vadd p (mvec A (chain ty H P theta vzero))).
Proof.
  induction ty as [|j ty IH]; intros H P theta A p LH LP LT U; simpl.
  - rewrite mmul_I_r, mvec_vzero, vadd_0_r. reflexivity.
  - destruct H as [|h H]; [discriminate|]. destruct P as [|q P]; [discriminate|].
    destruct theta as [|t theta]; [simpl in LT; lia|]. simpl in *.
    inversion U; subst.
    destruct j; simpl; rewrite IH by (auto; lia); f_equal; f_equal;
      rewrite ?mmul_assoc; auto; rewrite <- ?rot_rotate by auto;
      rewrite ?mvec_mmul, ?mvec_vadd, ?mvec_vscale; v_ring.
Qed.

(** The auxiliary transforms as motions. *)
Lemma act_tool_transform r x : act_opt (tool_transform r) x = act_tool r x.
Proof. unfold act_tool, tool_transform. destruct (rRtool r), (rptool r); reflexivity. Qed.
Lemma act_apply_aux r T x :
  act (apply_aux r T) x = act_opt (rbase r) (act T (act_opt (rflange r) (act_tool r x))).
Proof.
  rewrite <- act_tool_transform. unfold apply_aux.
  destruct (rbase r), (tool_transform r), (rflange r); simpl; rewrite ?act_tmul; reflexivity.
Qed.
Lemma rigid_tool r : wf_aux r -> rigid_opt (tool_transform r).
Proof.
  intros W. unfold tool_transform. destruct (rRtool r) eqn:E; simpl; auto.
  destruct (rptool r); simpl; auto. exact (wf_tool r W m E).
Qed.
Lemma rigid_apply_aux r T : wf_aux r -> rigid T -> rigid (apply_aux r T).
Proof.
  intros W H. pose proof (rigid_tool r W). pose proof (wf_flange r W). pose proof (wf_base r W).
  unfold apply_aux. destruct (rbase r), (tool_transform r), (rflange r); simpl in *; auto using rigid_tmul.
Qed.
Lemma rigid_unapply_aux r T : wf_aux r -> rigid T -> rigid (unapply_aux r T).
Proof.
  intros W H. pose proof (rigid_tool r W). pose proof (wf_flange r W). pose proof (wf_base r W).
  unfold unapply_aux. destruct (rbase r), (tool_transform r), (rflange r); simpl in *; auto using rigid_tmul, rigid_tinv.
Qed.
Lemma same_motion_act A B : same_motion A B <-> forall x, act A x = act B x.
Proof.
  split; [|apply act_inj]. intros [E F] x. unfold act. congruence.
Qed.
Lemma act_opt_inv_l (T : option transform) x : rigid_opt T ->
  act_opt (option_map tinv T) (act_opt T x) = x /\ act_opt T (act_opt (option_map tinv T) x) = x.
Proof. destruct T; simpl; auto. intros; apply act_tinv; auto. Qed.
Lemma act_unapply_aux r T x :
  act (unapply_aux r T) x =
  act_opt (option_map tinv (rbase r)) (act T (act_opt (option_map tinv (tool_transform r)) (act_opt (option_map tinv (rflange r)) x))).
Proof.
  unfold unapply_aux.
  destruct (rbase r), (tool_transform r), (rflange r); simpl; rewrite ?act_tmul; reflexivity.
Qed.
Lemma unapply_apply r T : wf_aux r -> same_motion (unapply_aux r (apply_aux r T)) T.
Proof.
  intros W. apply same_motion_act. intros x. rewrite act_unapply_aux, act_apply_aux, <- act_tool_transform.
  rewrite (proj1 (act_opt_inv_l (rbase r) _ (wf_base r W))).
  rewrite (proj2 (act_opt_inv_l (tool_transform r) _ (rigid_tool r W))).
  rewrite (proj2 (act_opt_inv_l (rflange r) _ (wf_flange r W))). reflexivity.
Qed.
Lemma apply_unapply r T : wf_aux r -> same_motion (apply_aux r (unapply_aux r T)) T.
Proof.
  intros W. apply same_motion_act. intros x. rewrite act_apply_aux, act_unapply_aux, <- act_tool_transform.
  rewrite (proj1 (act_opt_inv_l (rflange r) _ (wf_flange r W))).
  rewrite (proj1 (act_opt_inv_l (tool_transform r) _ (rigid_tool r W))).
  rewrite (proj2 (act_opt_inv_l (rbase r) _ (wf_base r W))). reflexivity.
Qed.

(** The bare pose of a well-formed robot. *)
Definition bare_pose (r : robot) (theta : list R) : transform :=
  Tf (cR (rtype r) (rH r) (tl (rP r)) theta)
     (vadd (hd vzero (rP r)) (chain (rtype r) (rH r) (tl (rP r)) theta vzero)) None None.

Lemma fwdkin_ignore r theta : wf_robot r -> (List.length (rtype r) <= List.length theta)%nat ->
  fwdkin r theta true = Ok (apply_aux r (bare_pose r theta)).
Proof.
  intros W L. unfold fwdkin; simpl. pose proof (wf_P r W) as LP. unfold bare_pose.
  destruct (rP r) as [|p0 P]; [discriminate|]. simpl in LP.
  rewrite fk_loop_eq; [| apply (wf_H r W) | lia | auto | apply (wf_unit r W)].
  simpl. rewrite mmul_I_l, mvec_I. reflexivity.
Qed.
Lemma rigid_bare r theta : wf_robot r -> rigid (bare_pose r theta).
Proof. intros W. apply cR_SO3, (wf_unit r W). Qed.
Lemma act_bare r theta x : wf_robot r ->
  act (bare_pose r theta) x = vadd (hd vzero (rP r)) (chain (rtype r) (rH r) (tl (rP r)) theta x).
Proof.
  intros W. unfold act; simpl. rewrite (chain_affine _ _ _ _ x) by apply (wf_unit r W). v_ring.
Qed.
Lemma act_fwdkin r theta x : wf_robot r ->
  act (apply_aux r (bare_pose r theta)) x = robot_point r theta x.
Proof. intros W. rewrite act_apply_aux, act_bare by auto. reflexivity. Qed.

(* ---------- limits ---------- *)
Lemma all2_same f a b : List.length a = List.length b ->
  all2 f a b = Ok (forallb (fun p => f (fst p) (snd p)) (combine a b)).
Proof. intros E. unfold all2. rewrite E, Nat.eqb_refl. reflexivity. Qed.
Lemma forallb_combine f (P : R -> R -> Prop) a : (forall x y, f x y = true <-> P x y) ->
  forall b, List.length a = List.length b ->
  (forallb (fun p => f (fst p) (snd p)) (combine a b) = true <-> Forall2 P a b).
Proof.
  intros HP. induction a as [|x a IH]; intros [|y b] L; try discriminate; simpl.
  - split; auto.
  - rewrite andb_true_iff, HP, IH by (simpl in L; lia). split.
    + intros []; constructor; auto.
    + intros F; inversion F; auto.
Qed.
Lemma Rleb_iff a b : Rleb a b = true <-> a <= b.
Proof. rcase (Rleb a b); split; intros; auto; try discriminate; lra. Qed.
Lemma Forall2_flip {A B} (P : A -> B -> Prop) a b : Forall2 P a b <-> Forall2 (fun y x => P x y) b a.
Proof. split; intros F; induction F; constructor; auto. Qed.

Lemma check_limits_spec r theta : wf_robot r -> List.length theta = List.length (rtype r) ->
  (within_limits r theta -> check_limits r theta false = Ok tt) /\
  (~ within_limits r theta -> check_limits r theta false = Err AssertionError).
Proof.
  intros W L. unfold within_limits, check_limits.
  destruct (rlower r) as [l|] eqn:El; [|tauto]. destruct (rupper r) as [u|] eqn:Eu; [|tauto].
  pose proof (wf_lower r W l El) as Ll. pose proof (wf_upper r W u Eu) as Lu.
  rewrite (all2_same _ theta l) by congruence. simpl.
  rewrite (all2_same _ theta u) by congruence. simpl.
  assert (H1 := forallb_combine (fun t b => Rleb b t) (fun t b => b <= t) theta (fun x y => Rleb_iff y x) l ltac:(congruence)).
  assert (H2 := forallb_combine (fun t b => Rleb t b) (fun t b => t <= b) theta Rleb_iff u ltac:(congruence)).
  rewrite (Forall2_flip Rle l theta).
  destruct (forallb _ (combine theta l)); destruct (forallb _ (combine theta u)); simpl;
    split; intros K; auto; exfalso; intuition discriminate.
Qed.
Lemma fwdkin_limits r theta : wf_robot r -> List.length theta = List.length (rtype r) ->
  (within_limits r theta -> fwdkin r theta false = fwdkin r theta true) /\
  (~ within_limits r theta -> fwdkin r theta false = Err AssertionError).
Proof.
  intros W L. destruct (check_limits_spec r theta W L) as [A B].
  unfold fwdkin at 1 3. split; intros K; [rewrite (A K)|rewrite (B K)]; reflexivity.
Qed.
Lemma jacobian_limits r theta : wf_robot r -> List.length theta = List.length (rtype r) ->
  (within_limits r theta -> robotjacobian r theta false = robotjacobian r theta true) /\
  (~ within_limits r theta -> robotjacobian r theta false = Err AssertionError).
Proof.
  intros W L. destruct (check_limits_spec r theta W L) as [A B].
  unfold robotjacobian at 1 3. split; intros K; [rewrite (A K)|rewrite (B K)]; reflexivity.
Qed.
(** Same robot, other limits. *)
Definition with_limits (r : robot) (l u : option (list R)) : robot :=
  Rb (rH r) (rP r) (rtype r) l u (rvel r) (racc r) (rM r) (rRtool r) (rptool r) (rnames r) (rroot r) (rtip r)
     (rflange r) (rbase r).
Lemma fwdkin_limits_irrelevant r l u theta : fwdkin (with_limits r l u) theta true = fwdkin r theta true.
Proof. reflexivity. Qed.
Lemma jacobian_limits_irrelevant r l u theta : robotjacobian (with_limits r l u) theta true = robotjacobian r theta true.
Proof. reflexivity. Qed.
Lemma fwdkin_nolimits r theta : rlower r = None \/ rupper r = None -> fwdkin r theta false = fwdkin r theta true.
Proof.
  intros H. unfold fwdkin, check_limits. destruct H as [-> | ->]; auto. destruct (rlower r); auto.
Qed.
Lemma jacobian_nolimits r theta : rlower r = None \/ rupper r = None -> robotjacobian r theta false = robotjacobian r theta true.
Proof.
  intros H. unfold robotjacobian, check_limits. destruct H as [-> | ->]; auto. destruct (rlower r); auto.
Qed.

(** A joint vector that is too short is always refused. *)
Lemma fk_loop_short ty : forall H P theta A p, (List.length theta < List.length ty)%nat ->
  fk_loop ty H P theta A p = Err IndexError.
Proof.
  induction ty as [|j ty IH]; intros H P theta A p L; simpl in *; [lia|].
  destruct H; auto. destruct P; auto. destruct theta; auto. simpl in L.
  destruct (fk_step j v v0 r A p). apply IH. lia.
Qed.
Lemma fwdkin_short r theta b T : (List.length theta < List.length (rtype r))%nat -> fwdkin r theta b <> Ok T.
Proof.
  intros L. unfold fwdkin. destruct (check_limits r theta b); simpl; try discriminate.
  destruct (rP r); try discriminate. rewrite fk_loop_short by auto. discriminate.
Qed.
Lemma fwdkin_length r theta T l u : wf_robot r -> rlower r = Some l -> rupper r = Some u ->
  (2 <= List.length (rtype r))%nat -> fwdkin r theta false = Ok T -> List.length theta = List.length (rtype r).
Proof.
  intros W El Eu N E. destruct (lt_eq_lt_dec (List.length theta) (List.length (rtype r))) as [[D|]|D]; auto; exfalso.
  - apply (fwdkin_short r theta false T); auto.
  - unfold fwdkin, check_limits in E. rewrite El, Eu in E. pose proof (wf_lower r W l El) as Ll.
    unfold all2 in E at 1. destruct (Nat.eqb_spec (List.length theta) (List.length l)); [lia|].
    destruct theta as [|t [|t' theta]], l as [|a [|b l]]; simpl in *; try discriminate; lia.
Qed.
