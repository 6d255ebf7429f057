(** Property C88: small changes of the joint values move the tool little. *)
From Coq Require Import Reals ZArith List Bool Lra Lia Psatz.
From Verif Require Import LinAlg RealAux Py FactsReal FactsLinAlg ModelRot SpecRot FactsRot FactsRot2 ModelTransform ModelRobot ModelKin SpecKin FactsKin FactsNorm PropKin
  ModelInvkin ModelFloat FactsB64 PropFloat PropPi ModelFloat3 PropNorm SpecMove.
Import ListNotations.
Open Scope R_scope.

Lemma one_minus_cos d : 2 * (1 - cos d) <= d * d.
Proof.
  pose proof (cos_2a_sin (d / 2)) as C. replace (2 * (d / 2)) with d in C by field.
  assert (S : Rabs (sin (d / 2)) <= Rabs (d / 2)).
  { destruct (Rle_dec 0 (d / 2)) as [P | P].
    - rewrite (Rabs_right (d / 2)) by lra. apply Rabs_le. split.
      + assert (Q : forall x, 0 <= x -> 0 <= x + sin x).
        { intros x Hx. pose proof (Rabs_sin_le x). destruct (Rle_dec x 1); [|lra]. pose proof PI_4. pose proof PI_lower. pose proof (sin_ge_0 x Hx ltac:(lra)). lra. }
        pose proof (Q _ P). lra.
      + apply sin_le_x. exact P.
    - rewrite (Rabs_left (d / 2)) by lra. pose proof (sin_neg (d / 2)) as SN. apply Rabs_le.
      pose proof (sin_le_x (- (d / 2)) ltac:(lra)) as U. split; [lra|].
      assert (Q : forall x, 0 <= x -> 0 <= x + sin x).
      { intros x Hx. pose proof (Rabs_sin_le x). destruct (Rle_dec x 1); [|lra]. pose proof PI_4. pose proof PI_lower. pose proof (sin_ge_0 x Hx ltac:(lra)). lra. }
      pose proof (Q (- (d / 2)) ltac:(lra)). lra. }
  assert (S2 : sin (d / 2) * sin (d / 2) <= d / 2 * (d / 2)).
  { exact (Rsqr_le_abs_1 _ _ S). }
  rewrite C. lra.
Qed.

Lemma norm_le_sq a b : 0 <= b -> dot a a <= b * b -> norm a <= b.
Proof. intros Hb H. unfold norm, norm2. rewrite <- (sqrt_square b Hb). apply sqrt_le_1_alt. exact H. Qed.
(** A turn by d moves a point by at most |d| times its distance. *)
Lemma turn_moves k d v : unit3 k -> norm (vsub (rotate k d v) v) <= Rabs d * norm v.
Proof.
  intros U. rewrite <- rot_rotate by auto. apply norm_le_sq; [apply Rmult_le_pos; [apply Rabs_pos | apply norm_nonneg]|].
  replace (Rabs d * norm v * (Rabs d * norm v)) with (Rabs d * Rabs d * (norm v * norm v)) by ring. rewrite norm_sq.
  replace (Rabs d * Rabs d) with (d * d) by (rewrite <- Rabs_mult; symmetry; apply Rabs_right; nra).
  rewrite mvec_rot. set (s := sin d). set (c := cos d).
  assert (E : dot (vsub (vadd (vadd v (vscale s (cross k v))) (vscale (1 - c) (cross k (cross k v)))) v)
                  (vsub (vadd (vadd v (vscale s (cross k v))) (vscale (1 - c) (cross k (cross k v)))) v)
            = (s * s + (1 - c) * (1 - c) * dot k k) * (dot k k * dot v v - dot k v * dot k v)) by la_ring.
  rewrite E. unfold unit3, norm2 in U. rewrite U. pose proof (sin2_cos2 d) as SC. unfold Rsqr in SC. fold s in SC. fold c in SC.
  replace (s * s + (1 - c) * (1 - c) * 1) with (2 * (1 - c)) by lra.
  pose proof (one_minus_cos d) as OC. fold c in OC.
  assert (V : 0 <= 1 * dot v v - dot k v * dot k v).
  { assert (V2 : 0 <= dot (cross k v) (cross k v)) by (unfold dot; nra).
    replace (dot (cross k v) (cross k v)) with (dot k k * dot v v - dot k v * dot k v) in V2 by la_ring. rewrite U in V2. exact V2. }
  assert (C1 : 0 <= 2 * (1 - c)) by (pose proof (Rabs_cos_le d); unfold c; lra).
  apply Rmult_le_compat; [exact C1 | exact V | exact OC|]. nra.
Qed.
Lemma rotate_sub k t v w : unit3 k -> norm (vsub (rotate k t v) (rotate k t w)) = norm (vsub v w).
Proof.
  intros U. rewrite <- !rot_rotate by auto. replace (vsub (mvec (rot k t) v) (mvec (rot k t) w)) with (mvec (rot k t) (vsub v w)) by la_ring.
  apply norm_SO3, rot_SO3. exact U.
Qed.
Lemma rotate_norm k t v : unit3 k -> norm (rotate k t v) = norm v.
Proof. intros U. rewrite <- rot_rotate by auto. apply norm_SO3, rot_SO3. exact U. Qed.
Lemma rotate_moves k t t' v : unit3 k -> norm (vsub (rotate k t v) (rotate k t' v)) <= Rabs (t - t') * norm v.
Proof.
  intros U. replace t with (t' + (t - t')) at 1 by ring. rewrite <- !rot_rotate by auto. rewrite <- rot_add, mvec_mmul by auto.
  replace (vsub (mvec (rot k t') (mvec (rot k (t - t')) v)) (mvec (rot k t') v)) with (mvec (rot k t') (vsub (mvec (rot k (t - t')) v) v)) by la_ring.
  rewrite norm_SO3 by (apply rot_SO3; exact U). rewrite rot_rotate by auto. apply turn_moves. exact U.
Qed.
Lemma rotate_period k t n v : rotate k (t + 2 * PI * IZR n) v = rotate k t v.
Proof.
  unfold rotate. assert (C : cos (t + 2 * PI * IZR n) = cos t /\ sin (t + 2 * PI * IZR n) = sin t).
  { destruct (Z_le_dec 0 n) as [P | P].
    - rewrite <- (Z2Nat.id n P), <- INR_IZR_INZ. replace (t + 2 * PI * INR (Z.to_nat n)) with (t + 2 * INR (Z.to_nat n) * PI) by ring.
      split; [apply cos_period | apply sin_period].
    - set (m := Z.to_nat (- n)). assert (E : IZR n = - INR m) by (unfold m; rewrite INR_IZR_INZ, Z2Nat.id, opp_IZR by lia; ring).
      rewrite E. rewrite <- (cos_period (t + 2 * PI * - INR m) m), <- (sin_period (t + 2 * PI * - INR m) m).
      replace (t + 2 * PI * - INR m + 2 * INR m * PI) with t by ring. auto. }
  destruct C as [-> ->]. reflexivity.
Qed.

Lemma arm_length_ge ty : forall P theta x, 0 <= x -> x <= arm_length ty P theta x.
Proof.
  induction ty as [|j ty IH]; intros P theta x Hx; cbn [arm_length]; [lra|]. destruct P as [|p P]; [lra|]. destruct theta as [|t theta]; [lra|].
  pose proof (IH P theta x Hx). pose proof (norm_nonneg p). pose proof (Rabs_pos t). destruct (turning j); lra.
Qed.
Lemma chain_length ty : forall H P theta x, Forall unit3 H -> length H = length ty -> norm (chain ty H P theta x) <= arm_length ty P theta (norm x).
Proof.
  induction ty as [|j ty IH]; intros H P theta x U LH; cbn [chain arm_length]; [lra|].
  destruct H as [|h H]; [discriminate|]. destruct P as [|p P]; [lra|]. destruct theta as [|t theta]; [lra|].
  inversion_clear U. injection LH as LH. pose proof (IH H P theta x H1 LH) as B.
  pose proof (norm_triangle p (chain ty H P theta x)) as T1.
  assert (T2 : norm (vadd (vscale t h) (vadd p (chain ty H P theta x))) <= Rabs t + norm (vadd p (chain ty H P theta x))).
  { eapply Rle_trans; [apply norm_triangle|]. rewrite norm_vscale, (norm_unit h H0). lra. }
  destruct j; cbn [joint_motion turning]; rewrite ?rotate_norm by auto; lra.
Qed.
Lemma chain_moves ty : forall H P theta theta' x, Forall unit3 H -> length H = length ty -> (length ty <= length theta)%nat -> (length ty <= length theta')%nat ->
  norm (vsub (chain ty H P theta x) (chain ty H P theta' x)) <= sway ty P theta theta' (norm x).
Proof.
  induction ty as [|j ty IH]; intros H P theta theta' x U LH L1 L2.
  { cbn [chain sway]. rewrite norm_self. lra. }
  destruct H as [|h H]; [discriminate|]. destruct theta as [|t theta]; [cbn in L1; lia|]. destruct theta' as [|t' theta']; [cbn in L2; lia|].
  cbn [chain sway]. destruct P as [|p P]; [rewrite norm_self; lra|].
  inversion_clear U. injection LH as LH. cbn [length] in L1, L2. pose proof (IH H P theta theta' x H1 LH ltac:(lia) ltac:(lia)) as B.
  pose proof (chain_length ty H P theta' x H1 LH) as CL.
  set (c := chain ty H P theta x) in *. set (c' := chain ty H P theta' x) in *. set (a := arm_length ty P theta' (norm x)) in *.
  pose proof (norm_triangle p c') as T1.
  assert (SP : norm (vsub (vadd p c) (vadd p c')) = norm (vsub c c')) by (f_equal; la_ring).
  assert (ROT : norm (vsub (rotate h t (vadd p c)) (rotate h t' (vadd p c'))) <= Rabs (t - t') * (norm p + a) + sway ty P theta theta' (norm x)).
  { replace (vsub (rotate h t (vadd p c)) (rotate h t' (vadd p c')))
      with (vadd (vsub (rotate h t (vadd p c)) (rotate h t (vadd p c'))) (vsub (rotate h t (vadd p c')) (rotate h t' (vadd p c')))) by la_ring.
    eapply Rle_trans; [apply norm_triangle|]. rewrite rotate_sub by auto. rewrite SP. pose proof (rotate_moves h t t' (vadd p c') H0) as RM.
    assert (Rabs (t - t') * norm (vadd p c') <= Rabs (t - t') * (norm p + a)) by (apply Rmult_le_compat_l; [apply Rabs_pos | lra]). lra. }
  assert (SHIFT : norm (vsub (vadd (vscale t h) (vadd p c)) (vadd (vscale t' h) (vadd p c'))) <= Rabs (t - t') * 1 + sway ty P theta theta' (norm x)).
  { replace (vsub (vadd (vscale t h) (vadd p c)) (vadd (vscale t' h) (vadd p c'))) with (vadd (vscale (t - t') h) (vsub c c')) by la_ring.
    eapply Rle_trans; [apply norm_triangle|]. rewrite norm_vscale, (norm_unit h H0). lra. }
  destruct j; cbn [joint_motion turning]; assumption.
Qed.

(** The poses of two joint vectors. *)
Lemma fwdkin_point r theta b T : wf_robot r -> fwdkin r theta b = Ok T ->
  (length (rtype r) <= length theta)%nat /\ forall x, act T x = robot_point r theta x.
Proof.
  intros W E. destruct (le_lt_dec (length (rtype r)) (length theta)) as [L|L]; [|destruct (fwdkin_short r theta b T L E)].
  assert (E' : fwdkin r theta true = Ok T) by (destruct b; auto; unfold fwdkin in *; destruct (check_limits r theta false); [exact E|discriminate]).
  destruct (C20_fwdkin_ignore r theta W L) as (T0 & E0 & A). rewrite E0 in E'. injection E' as <-. auto.
Qed.
Lemma base_sub r x y : wf_aux r -> norm (vsub (act_opt (rbase r) x) (act_opt (rbase r) y)) = norm (vsub x y).
Proof.
  intros WA. pose proof (wf_base r WA) as B. destruct (rbase r) as [T|]; cbn [act_opt]; [|reflexivity]. cbn [rigid_opt] in B. unfold rigid in B.
  rewrite <- (norm_SO3 (tR T) (vsub x y) B). f_equal. unfold act. la_ring.
Qed.
Theorem C88_points : forall r theta theta' b b' T T', wf_robot r -> wf_aux r -> fwdkin r theta b = Ok T -> fwdkin r theta' b' = Ok T' ->
  forall x, norm (vsub (act T x) (act T' x)) <= sway (rtype r) (tl (rP r)) theta theta' (norm (act_opt (rflange r) (act_tool r x))).
Proof.
  intros r theta theta' b b' T T' W WA E E' x. destruct (fwdkin_point r theta b T W E) as [L1 A1]. destruct (fwdkin_point r theta' b' T' W E') as [L2 A2].
  rewrite A1, A2. unfold robot_point. rewrite base_sub by auto.
  eapply Rle_trans; [|apply chain_moves with (H := rH r); [apply wf_unit | apply wf_H | |]; auto]. right. f_equal. la_ring.
Qed.

(** The orientation changes by at most the sum of the turns. *)
Lemma dir_moves ty : forall H theta theta' P v w x, Forall unit3 H -> length H = length ty -> length P = length ty ->
  (length ty <= length theta)%nat -> (length ty <= length theta')%nat ->
  norm (vsub (vsub (chain ty H P theta v) (chain ty H P theta x)) (vsub (chain ty H P theta' w) (chain ty H P theta' x)))
   <= total_turn ty theta theta' * norm (vsub w x) + norm (vsub v w).
Proof.
  induction ty as [|j ty IH]; intros H theta theta' P v w x U LH LP L1 L2.
  { cbn [chain total_turn]. right. rewrite Rmult_0_l, Rplus_0_l. f_equal. la_ring. }
  destruct H as [|h H]; [discriminate|]. destruct P as [|p P]; [discriminate|].
  destruct theta as [|t theta]; [cbn in L1; lia|]. destruct theta' as [|t' theta']; [cbn in L2; lia|].
  inversion_clear U. injection LH as LH. injection LP as LP. cbn [length] in L1, L2.
  pose proof (IH H theta theta' P v w x H1 LH LP ltac:(lia) ltac:(lia)) as B. cbn [chain total_turn].
  set (a := chain ty H P theta v) in *. set (a0 := chain ty H P theta x) in *. set (c := chain ty H P theta' w) in *. set (c0 := chain ty H P theta' x) in *.
  assert (ISO : norm (vsub c c0) = norm (vsub w x)).
  { clear - H1 LH LP L2. subst c c0. revert H P theta' H1 LH LP L2. induction ty as [|j ty IH]; intros H P theta' U LH LP L2; [reflexivity|].
    destruct H as [|h H]; [discriminate|]. destruct P as [|p P]; [discriminate|]. destruct theta' as [|t' theta']; [cbn in L2; lia|].
    inversion_clear U. injection LH as LH. injection LP as LP. cbn [length] in L2. cbn [chain].
    rewrite <- (IH H P theta' H1 LH LP ltac:(lia)).
    assert (SP : norm (vsub (vadd p (chain ty H P theta' w)) (vadd p (chain ty H P theta' x))) = norm (vsub (chain ty H P theta' w) (chain ty H P theta' x))) by (f_equal; la_ring).
    destruct j; cbn [joint_motion]; rewrite ?rotate_sub by auto; try exact SP; f_equal; la_ring. }
  assert (ROT : norm (vsub (vsub (rotate h t (vadd p a)) (rotate h t (vadd p a0))) (vsub (rotate h t' (vadd p c)) (rotate h t' (vadd p c0))))
     <= Rabs (t - t') * norm (vsub w x) + norm (vsub (vsub a a0) (vsub c c0))).
  { assert (LIN : forall s y z, vsub (rotate h s (vadd p y)) (rotate h s (vadd p z)) = rotate h s (vsub y z)).
    { intros s y z. rewrite <- !rot_rotate by auto. la_ring. }
    rewrite !LIN. replace (vsub (rotate h t (vsub a a0)) (rotate h t' (vsub c c0)))
      with (vadd (vsub (rotate h t (vsub a a0)) (rotate h t (vsub c c0))) (vsub (rotate h t (vsub c c0)) (rotate h t' (vsub c c0)))) by la_ring.
    eapply Rle_trans; [apply norm_triangle|]. rewrite rotate_sub by auto. pose proof (rotate_moves h t t' (vsub c c0) H0) as RM. rewrite ISO in RM. lra. }
  assert (SHIFT : norm (vsub (vsub (vadd (vscale t h) (vadd p a)) (vadd (vscale t h) (vadd p a0))) (vsub (vadd (vscale t' h) (vadd p c)) (vadd (vscale t' h) (vadd p c0))))
     = norm (vsub (vsub a a0) (vsub c c0))) by (f_equal; la_ring).
  rewrite Rmult_plus_distr_r. destruct j; cbn [joint_motion turning]; try lra; rewrite SHIFT; lra.
Qed.
Theorem C88_rotation : forall r theta theta' b b' T T', wf_robot r -> wf_aux r -> fwdkin r theta b = Ok T -> fwdkin r theta' b' = Ok T' ->
  forall v, norm (vsub (mvec (tR T) v) (mvec (tR T') v)) <= total_turn (rtype r) theta theta' * norm v.
Proof.
  intros r theta theta' b b' T T' W WA E E' v. destruct (fwdkin_point r theta b T W E) as [L1 A1]. destruct (fwdkin_point r theta' b' T' W E') as [L2 A2].
  replace (vsub (mvec (tR T) v) (mvec (tR T') v)) with (vsub (vsub (act T v) (act T vzero)) (vsub (act T' v) (act T' vzero))) by (unfold act; la_ring).
  rewrite !A1, !A2. unfold robot_point.
  set (g := fun y => act_opt (rflange r) (act_tool r y)). set (ch := fun th y => vadd (hd vzero (rP r)) (chain (rtype r) (rH r) (tl (rP r)) th y)).
  change (norm (vsub (vsub (act_opt (rbase r) (ch theta (g v))) (act_opt (rbase r) (ch theta (g vzero)))) (vsub (act_opt (rbase r) (ch theta' (g v))) (act_opt (rbase r) (ch theta' (g vzero))))) <= total_turn (rtype r) theta theta' * norm v).
  assert (BB : forall p q s t, norm (vsub (vsub (act_opt (rbase r) p) (act_opt (rbase r) q)) (vsub (act_opt (rbase r) s) (act_opt (rbase r) t))) = norm (vsub (vsub p q) (vsub s t))).
  { intros p q s t. pose proof (wf_base r WA) as B. destruct (rbase r) as [F|]; cbn [act_opt]; [|reflexivity]. cbn [rigid_opt] in B. unfold rigid in B.
    rewrite <- (norm_SO3 (tR F) (vsub (vsub p q) (vsub s t)) B). f_equal. unfold act. la_ring. }
  rewrite BB. assert (GI : norm (vsub (g v) (g vzero)) = norm v).
  { unfold g. assert (AT : norm (vsub (act_tool r v) (act_tool r vzero)) = norm v).
    { unfold act_tool. pose proof (wf_tool r WA) as WT. destruct (rRtool r) as [A|]; [destruct (rptool r) as [p|]|].
      - rewrite <- (norm_SO3 A v (WT A eq_refl)). f_equal. la_ring.
      - f_equal. la_ring.
      - f_equal. la_ring. }
    rewrite <- AT. pose proof (wf_flange r WA) as B. destruct (rflange r) as [F|]; cbn [act_opt]; [|reflexivity]. cbn [rigid_opt] in B. unfold rigid in B.
    rewrite <- (norm_SO3 (tR F) (vsub (act_tool r v) (act_tool r vzero)) B). f_equal. unfold act. generalize (act_tool r v) (act_tool r vzero). la_ring. }
  assert (LP : length (tl (rP r)) = length (rtype r)) by (pose proof (wf_P r W); destruct (rP r); cbn in *; lia).
  pose proof (dir_moves (rtype r) (rH r) theta theta' (tl (rP r)) (g v) (g v) (g vzero) (wf_unit r W) (wf_H r W) LP L1 L2) as D.
  rewrite GI, norm_self, Rplus_0_r in D. eapply Rle_trans; [|exact D]. right. unfold ch. f_equal. v_ring.
Qed.

(** Joint values that agree up to [d] and whole turns. *)
Lemma near_split d ty theta theta' : near_turns d ty theta theta' -> forall H P x,
  length theta = length ty /\ length theta' = length ty /\
  exists th, length th = length ty /\ chain ty H P th x = chain ty H P theta' x /\ Forall2 (fun a b => Rabs (a - b) <= d) theta th /\
    forall y, arm_length ty P th y = arm_length ty P theta' y.
Proof.
  induction 1 as [|j ty t t' n theta theta' Hn Hd HT IH]; intros H P x.
  - split; [reflexivity|]. split; [reflexivity|]. exists []. split; [reflexivity|]. split; [reflexivity|]. split; [constructor | reflexivity].
  - destruct (IH (tl H) (tl P) x) as (L1 & L2 & th & L3 & C & F & AL). cbn [length]. split; [congruence|]. split; [congruence|].
    exists ((t' + 2 * PI * IZR n) :: th). split; [cbn [length]; congruence|]. split; [|split].
    + destruct H as [|h H]; [reflexivity|]. destruct P as [|p P]; [reflexivity|]. cbn [chain tl] in *. rewrite C.
      destruct j; cbn [joint_motion]; rewrite ?rotate_period; try reflexivity; rewrite (Hn eq_refl), Rmult_0_r, Rplus_0_r; reflexivity.
    + constructor; [exact Hd | exact F].
    + intros y. destruct P as [|p P]; [reflexivity|]. cbn [arm_length tl] in *. rewrite AL. destruct j; cbn [turning] in *; try reflexivity;
      rewrite (Hn eq_refl), Rmult_0_r, Rplus_0_r; reflexivity.
Qed.
Lemma sway_le d y ty : 0 <= d -> 0 <= y -> forall P theta theta', Forall2 (fun a b => Rabs (a - b) <= d) theta theta' -> length theta' = length ty ->
  forall m, 1 <= m -> arm_length ty P theta' y <= m -> sway ty P theta theta' y <= INR (length ty) * (d * m).
Proof.
  intros D Y. induction ty as [|j ty IH]; intros P theta theta' F L m M1 MA.
  { cbn. lra. }
  cbn [sway arm_length length] in *. destruct P as [|p P]; [apply Rmult_le_pos; [apply pos_INR | nra]|].
  destruct F as [|t t' theta theta' Ht F]; [apply Rmult_le_pos; [apply pos_INR | nra]|]. cbn [arm_length length] in *. injection L as L.
  pose proof (norm_nonneg p) as N0. pose proof (Rabs_pos t') as T0. pose proof (arm_length_ge ty P theta' y Y) as A0.
  assert (MA' : norm p + arm_length ty P theta' y <= m) by (destruct (turning j); lra).
  pose proof (IH P theta theta' F L m M1 ltac:(lra)) as B. rewrite S_INR.
  assert (Rabs (t - t') * (if turning j then norm p + arm_length ty P theta' y else 1) <= d * m).
  { apply Rmult_le_compat; [apply Rabs_pos | destruct (turning j); lra | exact Ht | destruct (turning j); lra]. }
  lra.
Qed.
Theorem C88_near : forall r theta theta' b b' T T' d, wf_robot r -> wf_aux r -> fwdkin r theta b = Ok T -> fwdkin r theta' b' = Ok T' ->
  0 <= d -> near_turns d (rtype r) theta theta' ->
  forall x, norm (vsub (act T x) (act T' x)) <=
    INR (length (rtype r)) * (d * Rmax 1 (arm_length (rtype r) (tl (rP r)) theta' (norm (act_opt (rflange r) (act_tool r x))))).
Proof.
  intros r theta theta' b b' T T' d W WA E E' D NT x. destruct (fwdkin_point r theta b T W E) as [L1 A1]. destruct (fwdkin_point r theta' b' T' W E') as [L2 A2].
  rewrite A1, A2. unfold robot_point. rewrite base_sub by auto. set (y := act_opt (rflange r) (act_tool r x)).
  destruct (near_split d _ _ _ NT (rH r) (tl (rP r)) y) as (_ & _ & th & L3 & C & F & AL). rewrite <- C.
  pose proof (chain_moves (rtype r) (rH r) (tl (rP r)) theta th y (wf_unit r W) (wf_H r W) L1 ltac:(lia)) as CM.
  pose proof (sway_le d (norm y) (rtype r) D (norm_nonneg y) (tl (rP r)) theta th F L3 (Rmax 1 (arm_length (rtype r) (tl (rP r)) theta' (norm y))) (Rmax_l _ _)) as SL.
  rewrite AL in SL. specialize (SL (Rmax_r _ _)). eapply Rle_trans; [|eapply Rle_trans; [exact CM | exact SL]]. right. f_equal. la_ring.
Qed.

(** Joint vectors normalised in binary64 reach the same pose up to rounding. *)
Lemma whole_near (t x B : R) n : Rabs (x - (t + 2 * PI * IZR n)) <= uu * (3 * Rabs t + 24 * Rabs (IZR n) + 60) -> Rabs t <= B -> Rabs x <= B ->
  Rabs (x - (t + 2 * PI * IZR n)) <= uu * (12 * B + 64).
Proof.
  intros Hn HT HX. eapply Rle_trans; [exact Hn|].
  pose proof uu_pos as U0. pose proof uu_small as U1. pose proof pi_lo as PL. apply Rmult_le_compat_l; [lra|].
  pose proof (Rabs_pos (IZR n)) as N0. pose proof (Rabs_pos t) as T0.
  assert (Q : 2 * PI * Rabs (IZR n) <= 2 * B + uu * (3 * Rabs t + 24 * Rabs (IZR n) + 60)).
  { assert (E : Rabs (2 * PI * IZR n) = 2 * PI * Rabs (IZR n)) by (rewrite Rabs_mult, (Rabs_right (2 * PI)) by lra; reflexivity). rewrite <- E.
    replace (2 * PI * IZR n) with (- (x - (t + 2 * PI * IZR n)) + (x + - t)) by ring.
    eapply Rle_trans; [apply Rabs_triang|]. rewrite Rabs_Ropp. pose proof (Rabs_triang x (- t)) as T1. rewrite (Rabs_Ropp t) in T1. lra. }
  assert (Q1 : uu * (3 * Rabs t + 24 * Rabs (IZR n) + 60) <= 1 / 1000000 * (3 * Rabs t + 24 * Rabs (IZR n) + 60)) by (apply Rmult_le_compat_r; lra).
  assert (Q2 : 6.28 * Rabs (IZR n) <= 2 * PI * Rabs (IZR n)) by (apply Rmult_le_compat_r; lra). lra.
Qed.
Lemma normalised_near L dot (z : gnormalizer (b64_arith L dot)) joint (t x : b64) B :
  g_normalize (b64_arith L dot) b_rem z joint t = Ok (Some x) -> bfin x -> Rabs (bval t) <= B -> Rabs (bval x) <= B ->
  exists n, Rabs (bval x - (bval t + 2 * PI * IZR n)) <= uu * (12 * B + 64).
Proof.
  intros H F HT HX. destruct (C87_whole_turns L dot z joint t x H F) as (n & Hn). exists n. exact (whole_near _ _ B n Hn HT HX).
Qed.
Lemma near_list (d : R) ty : Forall (fun j => turning j = true) ty -> forall xs ts, length xs = length ty -> length ts = length ty ->
  (forall i x t, nth_error xs i = Some x -> nth_error ts i = Some t -> exists n, Rabs (x - (t + 2 * PI * IZR n)) <= d) -> near_turns d ty xs ts.
Proof.
  induction 1 as [|j ty Hj HF IH]; intros xs ts L1 L2 HN.
  - destruct xs; [|discriminate]. destruct ts; [|discriminate]. constructor.
  - destruct xs as [|x xs]; [discriminate|]. destruct ts as [|t ts]; [discriminate|].
    destruct (HN 0%nat x t eq_refl eq_refl) as (n & Hn). apply nt_cons with (n := n); [congruence | exact Hn|].
    apply IH; [injection L1; auto | injection L2; auto|]. intros i. exact (HN (S i)).
Qed.
Theorem C88_normalised : forall L dot (z : gnormalizer (b64_arith L dot)) r (ts xs : list b64) B b b' T T', wf_robot r -> wf_aux r ->
  Forall (fun j => turning j = true) (rtype r) -> length ts = length (rtype r) -> length xs = length (rtype r) ->
  (forall i t x, nth_error ts i = Some t -> nth_error xs i = Some x ->
     g_normalize (b64_arith L dot) b_rem z i t = Ok (Some x) /\ bfin x /\ Rabs (bval t) <= B /\ Rabs (bval x) <= B) -> 0 <= B ->
  fwdkin r (map bval ts) b = Ok T -> fwdkin r (map bval xs) b' = Ok T' ->
  forall x, norm (vsub (act T' x) (act T x)) <= INR (length (rtype r)) * (uu * (12 * B + 64) *
    Rmax 1 (arm_length (rtype r) (tl (rP r)) (map bval ts) (norm (act_opt (rflange r) (act_tool r x))))).
Proof.
  intros L dot z r ts xs B b b' T T' W WA TY L1 L2 HN HB E E' x.
  apply (C88_near r (map bval xs) (map bval ts) b' b T' T (uu * (12 * B + 64)) W WA E' E).
  - pose proof uu_pos. apply Rmult_le_pos; lra.
  - apply near_list; [exact TY | rewrite map_length; exact L2 | rewrite map_length; exact L1|].
    intros i vx vt Hx Ht. rewrite nth_error_map in Hx, Ht. destruct (nth_error xs i) as [y|] eqn:EX; [|discriminate]. destruct (nth_error ts i) as [t|] eqn:ET; [|discriminate].
    injection Hx as <-. injection Ht as <-. destruct (HN i t y ET EX) as (G & F & B1 & B2). exact (normalised_near L dot z i t y B G F B1 B2).
Qed.

(** Two turning joints; the angles 1 and 2 drawn towards 50 and 8 within the limits -10 and 10. *)
Definition ex88_r : robot := Rb [V3 0 0 1; V3 1 0 0] [V3 0 0 1; V3 2 0 0; V3 0 3 0] [Rotary; Rotary] None None None None None None None None None None None None.
Definition ex88_z : gnormalizer exA87 := @GN exA87 (Some ([b_ofZ (-10); b_ofZ (-10)], [b_ofZ 10; b_ofZ 10])) (Some [b_ofZ 50; b_ofZ 8]).
Lemma ex88_wf : wf_robot ex88_r /\ wf_aux ex88_r.
Proof.
  split; split; cbn; try reflexivity; try discriminate; try (split; auto; fail); auto.
  repeat constructor; unfold unit3, norm2, dot; cbn; ring.
Qed.
Definition in88 (o : out (option b64)) : bool := match o with Ok (Some x) => BinarySingleNaN.is_finite x && b_lt (b_ofZ 5) x && b_lt x (b_ofZ 10) | _ => false end.
Lemma ok88 o : in88 o = true -> exists x, o = Ok (Some x) /\ bfin x /\ 5 < bval x < 10.
Proof.
  destruct o as [[x|]|e]; try discriminate. cbn [in88]. rewrite !andb_true_iff. intros ((F & H) & H'). exists x. split; [reflexivity|]. split; [exact F|].
  assert (V5 : bval (b_ofZ 5) = 5) by (vm_compute; lra). assert (V10 : bval (b_ofZ 10) = 10) by (vm_compute; lra). split.
  - rewrite <- V5. apply (proj1 (b_lt_val (b_ofZ 5) x eq_refl F)). exact H.
  - rewrite <- V10. apply (proj1 (b_lt_val x (b_ofZ 10) F eq_refl)). exact H'.
Qed.
Example C88_ex : exists x0 x1 T T', 5 < bval x0 < 10 /\ 5 < bval x1 < 10 /\
  fwdkin ex88_r (map bval [b_ofZ 1; b_ofZ 2]) false = Ok T /\ fwdkin ex88_r (map bval [x0; x1]) false = Ok T' /\
  norm (vsub (act T' vzero) (act T vzero)) <= 2 * (uu * 184 * 5).
Proof.
  destruct ex88_wf as [W WA].
  destruct (ok88 (g_normalize exA87 b_rem ex88_z 0 (b_ofZ 1))) as (x0 & E0 & F0 & B0); [vm_compute; reflexivity|].
  destruct (ok88 (g_normalize exA87 b_rem ex88_z 1 (b_ofZ 2))) as (x1 & E1 & F1 & B1); [vm_compute; reflexivity|].
  destruct (C20_fwdkin_chain ex88_r (map bval [b_ofZ 1; b_ofZ 2]) W eq_refl Logic.I) as (T & ET & _).
  destruct (C20_fwdkin_chain ex88_r (map bval [x0; x1]) W eq_refl Logic.I) as (T' & ET' & _).
  exists x0, x1, T, T'. split; [exact B0|]. split; [exact B1|]. split; [exact ET|]. split; [exact ET'|].
  assert (V1 : bval (b_ofZ 1) = 1) by (vm_compute; lra). assert (V2 : bval (b_ofZ 2) = 2) by (vm_compute; lra).
  pose proof (C88_normalised _ _ ex88_z ex88_r [b_ofZ 1; b_ofZ 2] [x0; x1] 10 false false T T' W WA) as N.
  specialize (N ltac:(repeat constructor) eq_refl eq_refl).
  assert (HN : forall i t x, nth_error [b_ofZ 1; b_ofZ 2] i = Some t -> nth_error [x0; x1] i = Some x ->
     g_normalize exA87 b_rem ex88_z i t = Ok (Some x) /\ bfin x /\ Rabs (bval t) <= 10 /\ Rabs (bval x) <= 10).
  { intros i t x Ht Hx. destruct i as [|[|i]]; cbn [nth_error] in Ht, Hx.
    - assert (t = b_ofZ 1) as -> by congruence. assert (x = x0) as -> by congruence. split; [exact E0|]. split; [exact F0|]. rewrite V1, !Rabs_right by lra. lra.
    - assert (t = b_ofZ 2) as -> by congruence. assert (x = x1) as -> by congruence. split; [exact E1|]. split; [exact F1|]. rewrite V2, !Rabs_right by lra. lra.
    - destruct i; discriminate. }
  specialize (N HN ltac:(lra) ET ET' vzero). eapply Rle_trans; [exact N|].
  cbn [rtype length rP tl arm_length turning rflange act_opt map ex88_r]. fold ex88_r.
  assert (N1 : norm (V3 2 0 0) = 2) by (unfold norm, norm2, dot; cbn [vx vy vz]; replace (2 * 2 + 0 * 0 + 0 * 0) with (2 * 2) by ring; apply sqrt_square; lra).
  assert (N2 : norm (V3 0 3 0) = 3) by (unfold norm, norm2, dot; cbn [vx vy vz]; replace (0 * 0 + 3 * 3 + 0 * 0) with (3 * 3) by ring; apply sqrt_square; lra).
  assert (N0 : norm vzero = 0) by (unfold norm, norm2, dot; cbn [vx vy vz vzero]; replace (0 * 0 + 0 * 0 + 0 * 0) with 0 by ring; apply sqrt_0).
  assert (AT : act_tool ex88_r vzero = vzero) by (unfold act_tool; cbn; la_unfold; f_equal; ring).
  rewrite N1, N2, AT, N0. rewrite Rmax_right by lra. replace (INR 2) with 2 by (cbn; lra). right. ring.
Qed.

Print Assumptions C88_points.
Print Assumptions C88_rotation.
Print Assumptions C88_near.
Print Assumptions C88_normalised.
