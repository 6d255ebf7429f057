(** Properties C47, C48 and C67: iterative_invkin. *)
From Coq Require Import Reals ZArith List Bool Lia Lra Psatz.
From Verif Require Import LinAlg RealAux Py FactsReal FactsLinAlg ModelRot SpecRot FactsRot FactsRot2
  ModelTransform ModelRobot ModelKin SpecKin FactsKin FactsJac ModelInvkin SpecInvkin FactsInvkin SpecEquiv FactsIter PropKin.
Import ListNotations.
Open Scope R_scope.

(** Two joints about or along z *)
Definition rz (j1 j2 : jtype) : robot := Rb [ez; ez] [vzero; vzero; vzero] [j1; j2] None None None None None None None None None None None None.
Lemma rz_wf j1 j2 : wf_robot (rz j1 j2).
Proof.
  split; simpl; auto; try discriminate. repeat apply Forall_cons; try apply Forall_nil; unfold unit3, dot, ez; simpl; ring.
Qed.
Lemma rz_aux j1 j2 : wf_aux (rz j1 j2).
Proof. split; simpl; auto; try tauto; try discriminate. Qed.

(** * C47: converged means reached *)
Lemma turned_of pose T : rigid pose -> rigid T ->
  exists k t, unit3 k /\ 0 <= t <= PI /\ mmul (mT (tR pose)) (tR T) = rot k t /\ turned pose T k t.
Proof.
  intros RP RT. destruct (SO3_is_rot (mmul (mT (tR pose)) (tR T))) as (k & t & U & B & E).
  { apply SO3_mmul; [apply SO3_T|]; auto. }
  exists k, t. repeat split; auto; try tauto. intros x. rewrite <- rot_rotate, <- E, mvec_mmul, SO3_vec_T by auto. reflexivity.
Qed.
Lemma tool_error_norm T pose e : rigid T -> small e (tool_error T pose) -> norm (vsub (tp T) (tp pose)) < 2 * e.
Proof.
  intros RT (A & B & C). rewrite <- (SO3_norm (mT (tR T))) by (apply SO3_T; auto). fold (tool_error T pose).
  assert (E0 : 0 < e) by (pose proof (Rabs_pos (vx (tool_error T pose))); lra).
  apply Rabs_def2 in A. apply Rabs_def2 in B. apply Rabs_def2 in C.
  unfold norm, norm2, dot. rewrite <- (sqrt_Rsqr (2 * e)) by lra. apply sqrt_lt_1_alt. unfold Rsqr. split; nra.
Qed.
(** Any joints: the last iterate is within the tolerance (position coordinates as seen from the
    tool), unless R2rot misread a half turn; the result is that iterate moved by whole turns. *)
Theorem C47_iterate : forall pinv r pose seed m Kp KR tol q, wf_robot r -> wf_aux r -> rigid pose -> tol <= 1 / 2 ->
  iterative_invkin pinv r pose seed m Kp KR tol = Ok (true, q) ->
  exists p T k t, near_seed seed p q /\ fwdkin r p true = Ok T /\
    small tol (tool_error T pose) /\ norm (vsub (tp T) (tp pose)) < 2 * tol /\ turned pose T k t /\
    (small (Rmax tol (1 / 1000000)) (vscale (sin (t / 2)) k) \/
     (sin t < 1 / 1000000 /\ cos t <= 0 /\ misread tol (mmul (mT (tR pose)) (tR T)))).
Proof.
  intros pinv r pose seed m Kp KR tol q W WA RG TL E.
  destruct (iterative_inv _ _ _ _ _ _ _ _ _ _ E) as (L & _ & p & EL & LP & NS).
  destruct (loop_ok _ _ _ _ _ _ _ _ _ _ L EL) as (n & qs & _ & _ & Qn & _ & _ & BT & _).
  destruct (BT eq_refl) as (_ & s & e & (T & a & th & F & ER & -> & ->) & S1 & S2). rewrite Qn in F.
  assert (RT : rigid T) by (apply (C21_fwdkin_rigid r p true); auto).
  destruct (turned_of pose T RG RT) as (k & t & U & B & EE & TU).
  exists p, T, k, t. repeat split; try apply NS; try apply S2; try apply TU; auto.
  - apply tool_error_norm; auto.
  - rewrite EE in ER. destruct (R2rot_small tol k t a th U B TL ER S1) as [G|(A1 & A2 & A3 & A4 & A5)].
    + left. exact G.
    + right. rewrite EE. unfold misread, eps6 in *. auto.
Qed.
(** Rotary joints: the returned joints themselves. *)
Theorem C47_rotary : forall pinv r pose seed m Kp KR tol q, wf_robot r -> wf_aux r -> rigid pose -> tol <= 1 / 2 ->
  Forall (fun j => j = Rotary) (rtype r) ->
  iterative_invkin pinv r pose seed m Kp KR tol = Ok (true, q) ->
  exists T k t, fwdkin r q true = Ok T /\
    small tol (tool_error T pose) /\ norm (vsub (tp T) (tp pose)) < 2 * tol /\ turned pose T k t /\
    (small (Rmax tol (1 / 1000000)) (vscale (sin (t / 2)) k) \/
     (sin t < 1 / 1000000 /\ cos t <= 0 /\ misread tol (mmul (mT (tR pose)) (tR T)))).
Proof.
  intros pinv r pose seed m Kp KR tol q W WA RG TL RO E.
  destruct (C47_iterate _ _ _ _ _ _ _ _ _ W WA RG TL E) as (p & T & k & t & NS & F & H).
  exists T, k, t. split; auto. rewrite <- (fwdkin_turns r p q); auto.
  destruct (iterative_inv _ _ _ _ _ _ _ _ _ _ E) as (L & _). apply (near_seed_turns r seed); auto.
Qed.
(** With a tolerance of at most 1e-6 nothing is misread. *)
Theorem C47_fine : forall pinv r pose seed m Kp KR tol q, wf_robot r -> wf_aux r -> rigid pose -> tol <= 1 / 1000000 ->
  Forall (fun j => j = Rotary) (rtype r) ->
  iterative_invkin pinv r pose seed m Kp KR tol = Ok (true, q) ->
  exists T k t, fwdkin r q true = Ok T /\ small tol (tool_error T pose) /\ turned pose T k t /\
    small (1 / 1000000) (vscale (sin (t / 2)) k).
Proof.
  intros pinv r pose seed m Kp KR tol q W WA RG TL RO E.
  destruct (C47_rotary _ _ _ _ _ _ _ tol _ W WA RG ltac:(lra) RO E) as (T & k & t & F & S & _ & TU & [G|(_ & _ & _ & _ & M)]).
  - exists T, k, t. rewrite Rmax_right in G by auto. auto.
  - assert (P : 0 < tol) by (destruct S as [S _]; pose proof (Rabs_pos (vx (tool_error T pose))); lra). nra.
Qed.

Lemma rz_fk j2 a d : j2 = Rotary \/ j2 = Prismatic ->
  exists T, fwdkin (rz Rotary j2) [a; d] true = Ok T /\
    (j2 = Rotary -> tR T = rot ez (a + d) /\ tp T = vzero) /\ (j2 = Prismatic -> tR T = rot ez a /\ tp T = V3 0 0 d).
Proof.
  intros J. pose proof (rz_wf Rotary j2) as W.
  exists (apply_aux (rz Rotary j2) (bare_pose (rz Rotary j2) [a; d])). split; [apply fwdkin_ignore; auto; simpl; auto|].
  assert (U : unit3 ez) by (unfold unit3, dot, ez; simpl; ring).
  assert (ZA : forall x, vadd vzero x = x) by (intros [x y z]; unfold vadd, vzero; simpl; f_equal; ring).
  assert (A := fun x => act_fwdkin (rz Rotary j2) [a; d] x W).
  set (T := apply_aux _ _) in *. clearbody T. unfold robot_point in A. simpl in A.
  assert (SM : forall B : transform, (forall x, act T x = act B x) -> tR T = tR B /\ tp T = tp B) by (intros B H; apply C16_faithful; auto).
  split; intros ->.
  - apply (SM (Tf (rot ez (a + d)) vzero None None)). intros x. rewrite A. unfold act_tool; simpl. unfold act. cbn [tR tp joint_motion]. rewrite !ZA.
    rewrite <- !rot_rotate by auto. rewrite <- mvec_mmul. rewrite rot_add by auto. rewrite (vadd_comm _ vzero), ZA. reflexivity.
  - apply (SM (Tf (rot ez a) (V3 0 0 d) None None)). intros x. rewrite A. unfold act_tool; simpl. unfold act. cbn [tR tp joint_motion]. rewrite !ZA.
    rewrite <- !rot_rotate by auto. rewrite mvec_vadd, vadd_comm. f_equal. rewrite mvec_vscale, rot_axis. unfold vscale, ez; simpl. f_equal; ring.
Qed.
(** Convergence is reported half a turn away from the desired pose. *)
Theorem C47_half_turn_refuted : exists r pose seed k, wf_robot r /\ wf_aux r /\ rigid pose /\ Forall (fun j => j = Rotary) (rtype r) /\
  exists T, fwdkin r seed true = Ok T /\ unit3 k /\ turned pose T k PI /\
  forall pinv m Kp KR, (forall J b, exists d, pinv J b = Ok d) ->
  iterative_invkin pinv r pose seed (S m) Kp KR (1 / 10000) = Ok (true, seed).
Proof.
  set (k := V3 0 (80000/1600000001) (1599999999/1600000001)).
  assert (U : unit3 k) by (unfold unit3, dot, k; simpl; lra).
  exists (rz Rotary Rotary), (Tf (rot k PI) vzero None None), [0; 0], k. pose proof PI_pos as PP.
  split; [apply rz_wf|]. split; [apply rz_aux|]. split; [apply rot_SO3; auto|]. split; [repeat constructor|].
  destruct (rz_fk Rotary 0 0 ltac:(auto)) as (T & F & H & _). destruct (H eq_refl) as [TR TP]. rewrite Rplus_0_r, rot_0 in TR. clear H.
  assert (INV : mT (rot k PI) = rot k PI).
  { rewrite rot_T. unfold rot. rewrite sin_neg, cos_neg, sin_PI. replace (- 0) with 0 by ring. reflexivity. }
  exists T. split; auto. split; auto. split.
  - split; auto. split; [lra|]. intros x. rewrite TR, <- rot_rotate by auto. cbn [tR]. rewrite <- INV at 1. rewrite SO3_T_vec by (apply rot_SO3; auto). apply mvec_I.
  - intros pinv m Kp KR PV. unfold iterative_invkin. cbn [rtype rz length Nat.eqb negb].
    assert (ST : iterative_step pinv (rz Rotary Rotary) (Tf (rot k PI) vzero None None) Kp KR (1 / 10000) [0; 0] = Ok (true, [0; 0])).
    { unfold iterative_step. rewrite F. cbn [bind].
      destruct (C25_columns (rz Rotary Rotary) [0; 0] (rz_wf _ _)) as (J & -> & _); [simpl; auto|repeat constructor; discriminate|]. cbn [bind].
      cbn [tR tp]. rewrite TR, TP, INV, mmul_I_r, R2rot_half_turn by auto.
      assert (HA : half_turn_axis k = V3 0 (80000/1600000001) 0).
      { unfold half_turn_axis, k. cbn [vx vy vz]. rewrite Rabs_R0, (Rabs_right (80000/1600000001)), Rmult_0_l, sgn_0 by lra.
        rewrite Rltb_ge by lra. rewrite Rltb_lt by lra. f_equal; ring. }
      rewrite HA. clear HA. destruct (PV (to_tool_frame I3 J) (V6 (mvec KR (vscale (sin (PI / 2)) (axis_vec (NdArray (V3 0 (80000/1600000001) 0))))) (mvec Kp (mvec (mT I3) (vsub vzero vzero))))) as [d ->].
      cbn [bind]. rewrite sin_PI2.
      assert (S1 : all_below (1 / 10000) (vscale 1 (axis_vec (NdArray (V3 0 (80000/1600000001) 0)))) = true).
      { apply all_below_small. unfold small, vscale; simpl. rewrite !Rmult_0_r, Rabs_R0, Rmult_1_l, Rabs_right by lra. lra. }
      assert (S2 : all_below (1 / 10000) (mvec (mT I3) (vsub vzero vzero)) = true).
      { apply all_below_small. replace (mvec (mT I3) (vsub vzero vzero)) with vzero by (unfold mvec, mT, I3, vsub, vzero; simpl; f_equal; ring).
        unfold small, vzero; simpl. rewrite Rabs_R0. lra. }
      rewrite S1, S2. reflexivity. }
    cbn [iterative_loop]. rewrite ST. cbn [bind fst snd].
    destruct (final_near (rz Rotary Rotary) [0; 0] [0; 0] eq_refl) as (q & E & NS). cbn [length] in E. cbn [rtype rz length Nat.eqb negb]. rewrite E. cbn [bind]. rewrite flat_map_some.
    do 2 f_equal. apply (near_seed_unique [0; 0] [0; 0]); auto. repeat split.
    + apply ang_eq_refl.
    + destruct i as [|[|i]]; simpl; lra.
    + destruct i as [|[|i]]; simpl; lra.
Qed.
Lemma slide_run pinv : (forall b, pinv [V6 ez vzero; V6 vzero ez] b = Ok [vz (hi3 b); vz (lo3 b)]) ->
  iterative_invkin pinv (rz Rotary Prismatic) (Tf I3 (V3 0 0 5) None None) [0; 0] 2 I3 I3 (1 / 10000) = Ok (true, [0; 5 - 2 * PI]).
Proof.
  intros PV. pose proof PI_lower as PL. pose proof PI_4 as P4.
  assert (JJ : forall d, robotjacobian (rz Rotary Prismatic) [0; d] true = Ok [V6 ez vzero; V6 vzero ez]).
  { intros d. unfold robotjacobian. cbn [check_limits rP rz bind rtype rH jac_loop fk_step]. cbn [bind fst snd jac_cols rflange rptool rbase].
    rewrite rot_0. rewrite mmul_I_l, !mvec_I. cbn [bind].
    assert (X : forall v, v = V3 0 0 d -> mvec (hat ez) (vsub v vzero) = vzero) by (intros v ->; unfold mvec, hat, vsub, vzero, ez; simpl; f_equal; ring).
    rewrite X; [reflexivity|]. unfold vadd, vscale, vzero, ez; simpl. f_equal; ring. }
  assert (R0 : R2rot I3 = Fin (PyList (V3 0 0 1), 0)).
  { rewrite <- (rot_0 ez). apply R2rot_near_I; [unfold unit3, dot, ez; simpl; ring|lra|rewrite sin_0; lra|rewrite cos_0; lra]. }
  assert (S0 : vscale (sin (0 / 2)) (axis_vec (PyList (V3 0 0 1))) = vzero).
  { replace (0 / 2) with 0 by field. rewrite sin_0. unfold vscale, vzero; simpl. f_equal; ring. }
  assert (IT : mT I3 = I3) by reflexivity.
  assert (TF : to_tool_frame I3 [V6 ez vzero; V6 vzero ez] = [V6 ez vzero; V6 vzero ez]).
  { unfold to_tool_frame. cbn [map hi3 lo3]. rewrite IT, !mvec_I. reflexivity. }
  set (pose := Tf I3 (V3 0 0 5) None None).
  assert (ST1 : iterative_step pinv (rz Rotary Prismatic) pose I3 I3 (1 / 10000) [0; 0] = Ok (false, [0; 5])).
  { unfold iterative_step. destruct (rz_fk Prismatic 0 0 ltac:(auto)) as (T & F & _ & H). destruct (H eq_refl) as [TR TP]. rewrite rot_0 in TR.
    rewrite F. cbn [bind]. rewrite JJ. cbn [bind]. unfold pose; cbn [tR tp]. rewrite TR, TP, IT, TF, mmul_I_l, R0, S0, !mvec_I, PV. cbn [bind hi3 lo3].
    assert (B : all_below (1 / 10000) (vsub (V3 0 0 0) (V3 0 0 5)) = false).
    { apply not_true_is_false. intros B. apply all_below_small in B. destruct B as (_ & _ & B). simpl in B. rewrite Rabs_left in B by lra. lra. }
    rewrite B, andb_false_r. simpl. do 3 f_equal; [ring|f_equal; ring]. }
  assert (ST2 : iterative_step pinv (rz Rotary Prismatic) pose I3 I3 (1 / 10000) [0; 5] = Ok (true, [0; 5])).
  { unfold iterative_step. destruct (rz_fk Prismatic 0 5 ltac:(auto)) as (T & F & _ & H). destruct (H eq_refl) as [TR TP]. rewrite rot_0 in TR.
    rewrite F. cbn [bind]. rewrite JJ. cbn [bind]. unfold pose; cbn [tR tp]. rewrite TR, TP, IT, TF, mmul_I_l, R0, S0, !mvec_I, PV. cbn [bind hi3 lo3].
    assert (B1 : all_below (1 / 10000) vzero = true). { apply all_below_small. unfold small, vzero; simpl. rewrite Rabs_R0. lra. }
    assert (B2 : all_below (1 / 10000) (vsub (V3 0 0 5) (V3 0 0 5)) = true).
    { apply all_below_small. unfold small, vsub; simpl. replace (0 - 0) with 0 by ring. replace (5 - 5) with 0 by ring. rewrite Rabs_R0. lra. }
    rewrite B1, B2. reflexivity. }
  unfold iterative_invkin. cbn [rtype rz length Nat.eqb negb]. cbn [iterative_loop]. rewrite ST1. cbn [bind fst snd]. rewrite ST2. cbn [bind fst snd].
  destruct (final_near (rz Rotary Prismatic) [0; 0] [0; 5] eq_refl) as (q & E & NS). cbn [length] in E. cbn [rtype rz length Nat.eqb negb]. rewrite E. cbn [bind]. rewrite flat_map_some.
  do 2 f_equal. apply (near_seed_unique [0; 0] [0; 5]); auto. repeat split.
  - destruct i as [|[|i]]; [apply ang_eq_refl| |simpl in H; lia]. exists (-1)%Z. simpl. lra.
  - destruct i as [|[|i]]; simpl in *; try lra; lia.
  - destruct i as [|[|i]]; simpl in *; try lra; lia.
Qed.
(** A sliding joint is moved by whole turns as if it were an angle: convergence is reported, and
    the returned joints miss the desired position by 2 pi.  (The Jacobian here has
    orthonormal columns, so its pseudo-inverse is its transpose.) *)
Theorem C47_prismatic_refuted : exists r pose seed q, wf_robot r /\ wf_aux r /\ rigid pose /\
  (forall pinv, (forall b, pinv [V6 ez vzero; V6 vzero ez] b = Ok [vz (hi3 b); vz (lo3 b)]) ->
     iterative_invkin pinv r pose seed 2 I3 I3 (1 / 10000) = Ok (true, q)) /\
  exists T, fwdkin r q true = Ok T /\ norm (vsub (tp T) (tp pose)) = 2 * PI.
Proof.
  exists (rz Rotary Prismatic), (Tf I3 (V3 0 0 5) None None), [0; 0], [0; 5 - 2 * PI]. pose proof PI_lower as PL. pose proof PI_4 as P4.
  split; [apply rz_wf|]. split; [apply rz_aux|]. split; [apply SO3_I|]. split; [exact slide_run|].
  destruct (rz_fk Prismatic 0 (5 - 2 * PI) ltac:(auto)) as (T & F & _ & H). destruct (H eq_refl) as [_ TP]. exists T. split; auto. rewrite TP. cbn [tp].
      unfold norm, norm2, dot, vsub; simpl. replace (_ + _ + _) with ((2 * PI) * (2 * PI)) by ring. apply sqrt_square. lra.
Qed.
(** Convergence does happen: at the desired pose itself, at once. *)
Example C47_ex : forall pinv m Kp KR, (forall J b, exists d, pinv J b = Ok d) ->
  iterative_invkin pinv (rz Rotary Rotary) (Tf (rot ez 1) vzero None None) [1; 0] (S m) Kp KR (1 / 10000) = Ok (true, [1; 0]).
Proof.
  intros pinv m Kp KR PV. pose proof PI_lower as PP. set (r := rz Rotary Rotary). set (pose := Tf (rot ez 1) vzero None None).
  assert (U : unit3 ez) by (unfold unit3, dot, ez; simpl; ring).
  assert (ST : iterative_step pinv r pose Kp KR (1 / 10000) [1; 0] = Ok (true, [1; 0])).
  { unfold iterative_step, r, pose. destruct (rz_fk Rotary 1 0 ltac:(auto)) as (T & F & H & _). destruct (H eq_refl) as [TR TP]. rewrite Rplus_0_r in TR.
    rewrite F. cbn [bind]. destruct (C25_columns (rz Rotary Rotary) [1; 0] (rz_wf _ _)) as (J & -> & _); [simpl; auto|repeat constructor; discriminate|]. cbn [bind tR tp].
    rewrite TR, TP, SO3_T_mul by (apply rot_SO3; auto). rewrite <- (rot_0 ez), R2rot_near_I by (auto; rewrite ?sin_0, ?cos_0; lra).
    destruct (PV (to_tool_frame (rot ez 1) J) (V6 (mvec KR (vscale (sin (0 / 2)) (axis_vec (PyList (V3 0 0 1))))) (mvec Kp (mvec (mT (rot ez 1)) (vsub vzero vzero))))) as [d ->]. cbn [bind].
    assert (B1 : all_below (1 / 10000) (vscale (sin (0 / 2)) (axis_vec (PyList (V3 0 0 1)))) = true).
    { apply all_below_small. replace (0 / 2) with 0 by field. rewrite sin_0. unfold small, vscale; simpl. rewrite !Rmult_0_l, Rabs_R0. lra. }
    assert (B2 : all_below (1 / 10000) (mvec (mT (rot ez 1)) (vsub vzero vzero)) = true).
    { apply all_below_small. replace (mvec (mT (rot ez 1)) (vsub vzero vzero)) with vzero. unfold small, vzero; simpl. rewrite Rabs_R0. lra.
      generalize (mT (rot ez 1)). intros M. unfold mvec, vsub, vzero; simpl. f_equal; ring. }
    rewrite B1, B2. reflexivity. }
  unfold iterative_invkin. cbn [rtype rz r length Nat.eqb negb]. cbn [iterative_loop]. fold r. rewrite ST. cbn [bind fst snd].
  destruct (final_near r [1; 0] [1; 0] eq_refl) as (q & E & NS). cbn [length] in E. rewrite E. cbn [bind]. rewrite flat_map_some.
  do 2 f_equal. apply (near_seed_unique [1; 0] [1; 0]); auto. repeat split.
  - apply ang_eq_refl.
  - destruct i as [|[|i]]; simpl in *; try lra; lia.
  - destruct i as [|[|i]]; simpl in *; try lra; lia.
Qed.

(** * C48: step count, first success, nearness to the seed *)
Theorem C48_steps : forall pinv r pose seed m Kp KR tol b q,
  iterative_invkin pinv r pose seed m Kp KR tol = Ok (b, q) ->
  exists n qs, (n <= m)%nat /\ qs 0%nat = seed /\
    (forall i, (i < n)%nat -> descent pinv r pose Kp KR (qs i) (qs (S i)) /\
       forall s e, measured r pose (qs i) s e -> ~ (small tol s /\ small tol e)) /\
    (if b then (n < m)%nat /\ exists s e, measured r pose (qs n) s e /\ small tol s /\ small tol e else n = m) /\
    near_seed seed (qs n) q /\ (forall q', near_seed seed (qs n) q' -> q' = q).
Proof.
  intros pinv r pose seed m Kp KR tol b q E. destruct (iterative_inv _ _ _ _ _ _ _ _ _ _ E) as (L & _ & p & EL & LP & NS).
  destruct (loop_ok _ _ _ _ _ _ _ _ _ _ L EL) as (n & qs & Ln & Q0 & Qn & _ & ST & BT & BF).
  exists n, qs. rewrite Qn. split; auto. split; auto. split; auto. split; [|split; auto].
  - rewrite <- Qn. destruct b; auto.
  - intros q' NS'. apply (near_seed_unique seed p); auto.
Qed.
(** Without any steps the seed comes back, not converged. *)
Theorem C48_no_steps : forall pinv r pose seed Kp KR tol, length seed = length (rtype r) -> length seed <> 1%nat ->
  iterative_invkin pinv r pose seed 0 Kp KR tol = Ok (false, seed).
Proof.
  intros pinv r pose seed Kp KR tol L N. unfold iterative_invkin. rewrite L, Nat.eqb_refl. cbn [negb iterative_loop bind].
  destruct (Nat.eqb_spec (length (rtype r)) 1) as [X|X]; [lia|]. rewrite <- L. cbn [snd].
  destruct (final_near r seed seed eq_refl) as (q & -> & NS). cbn [bind fst]. rewrite flat_map_some. do 2 f_equal.
  pose proof PI_pos. apply (near_seed_unique seed seed); auto. repeat split; auto; try lra. apply ang_eq_refl.
Qed.

Example C48_ex : exists pinv, iterative_invkin pinv (rz Rotary Prismatic) (Tf I3 (V3 0 0 5) None None) [0; 0] 2 I3 I3 (1 / 10000) = Ok (true, [0; 5 - 2 * PI]).
Proof.
  exists (fun J b => Ok (map (fun c => dot (hi3 c) (hi3 b) + dot (lo3 c) (lo3 b)) J)). apply slide_run.
  intros [[a b c] [d e f]]. cbn [map hi3 lo3]. unfold dot, ez, vzero; simpl. do 2 f_equal; [ring|f_equal; ring].
Qed.

(** * C67: when iterative_invkin returns *)
Theorem C67_returns : forall pinv r pose seed m Kp KR tol, wf_robot r -> wf_aux r -> Forall plain_type (rtype r) -> rigid pose ->
  (forall J b, exists d, pinv J b = Ok d /\ length d = length J) ->
  length seed = length (rtype r) -> length seed <> 1%nat ->
  exists b q, iterative_invkin pinv r pose seed m Kp KR tol = Ok (b, q).
Proof.
  intros pinv r pose seed m Kp KR tol W WA PT RG PV L N. unfold iterative_invkin. rewrite L, Nat.eqb_refl. cbn [negb].
  destruct (loop_total pinv r pose Kp KR tol m W WA PT RG PV seed L) as (b & p & E). rewrite E. cbn [bind fst snd].
  destruct (Nat.eqb_spec (length (rtype r)) 1) as [X|X]; [lia|].
  destruct (loop_ok _ _ _ _ _ _ _ _ _ _ L E) as (n & qs & _ & _ & _ & LP & _). rewrite <- L in *.
  destruct (final_near r seed p ltac:(lia)) as (q & -> & NS). cbn [bind]. eauto.
Qed.
(** A robot with one joint never gets a result. *)
Theorem C67_single_joint : forall pinv r pose seed m Kp KR tol, wf_robot r -> wf_aux r -> Forall plain_type (rtype r) -> rigid pose ->
  (forall J b, exists d, pinv J b = Ok d /\ length d = length J) ->
  length seed = length (rtype r) -> length seed = 1%nat ->
  iterative_invkin pinv r pose seed m Kp KR tol = Err TypeError.
Proof.
  intros pinv r pose seed m Kp KR tol W WA PT RG PV L N. unfold iterative_invkin. rewrite L, Nat.eqb_refl. cbn [negb].
  destruct (loop_total pinv r pose Kp KR tol m W WA PT RG PV seed L) as (b & p & E). rewrite E. cbn [bind fst snd].
  rewrite <- L, N. reflexivity.
Qed.
Definition r1 : robot := Rb [ez] [vzero; ex] [Rotary] None None None None None None None None None None None None.
Theorem C67_refuted : exists r pose seed, wf_robot r /\ wf_aux r /\ Forall plain_type (rtype r) /\ rigid pose /\ length seed = length (rtype r) /\
  forall pinv m Kp KR tol, (forall J b, exists d, pinv J b = Ok d /\ length d = length J) ->
  iterative_invkin pinv r pose seed m Kp KR tol = Err TypeError.
Proof.
  assert (W : wf_robot r1).
  { split; simpl; auto; try discriminate. apply Forall_cons; [|constructor]. unfold unit3, dot, ez; simpl; ring. }
  assert (WA : wf_aux r1) by (split; simpl; auto; try tauto; try discriminate).
  assert (PT : Forall plain_type (rtype r1)) by (apply Forall_cons; [left; auto|constructor]).
  exists r1, (Tf I3 ex None None), [0]. split; auto. split; auto. split; auto. split; [apply SO3_I|]. split; [reflexivity|].
  intros. apply C67_single_joint; auto. apply SO3_I.
Qed.
Theorem C67_seed_length : forall pinv r pose seed m Kp KR tol, length seed <> length (rtype r) ->
  iterative_invkin pinv r pose seed m Kp KR tol = Err ValueError.
Proof. intros. unfold iterative_invkin. destruct (Nat.eqb_spec (length seed) (length (rtype r))); [lia|reflexivity]. Qed.
Example C67_ex : wf_robot (rz Rotary Prismatic) /\ wf_aux (rz Rotary Prismatic) /\ Forall plain_type (rtype (rz Rotary Prismatic)) /\
  (forall (J : list vec6) (b : vec6), exists d : list R, Ok (map (fun c => dot (hi3 c) (hi3 b) + dot (lo3 c) (lo3 b)) J) = Ok d /\ length d = length J).
Proof.
  split; [apply rz_wf|]. split; [apply rz_aux|]. split.
  - apply Forall_cons; [left; auto|]. apply Forall_cons; [right; auto|constructor].
  - intros J b. eexists. split; [reflexivity|]. apply map_length.
Qed.

Print Assumptions C47_iterate.
Print Assumptions C47_rotary.
Print Assumptions C47_fine.
Print Assumptions C47_half_turn_refuted.
Print Assumptions C47_prismatic_refuted.
Print Assumptions C48_steps.
Print Assumptions C48_no_steps.
Print Assumptions C67_returns.
Print Assumptions C67_single_joint.
Print Assumptions C67_refuted.
Print Assumptions C67_seed_length.
