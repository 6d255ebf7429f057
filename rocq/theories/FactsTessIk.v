(** Lemmas about the UR and OPW solver parameters. *)
From Coq Require Import Reals ZArith String List Bool Lia Lra.
From Verif Require Import LinAlg RealAux Py FactsReal FactsLinAlg SpecRot ModelRot FactsRot ModelTransform ModelRobot SpecKin FactsKin.
From Verif Require Import ModelTess SpecTess FactsTess.
Import ListNotations.
Open Scope R_scope.

(* ---------- turns about the coordinate axes ---------- *)
Ltac vec_unfold := cbv [rotate vadd vscale cross dot vneg vsub mvec of_cols ex ey ez vzero I3 vx vy vz m00 m01 m02 m10 m11 m12 m20 m21 m22].
Ltac vec_ring := vec_unfold; f_equal; ring.

Lemma rotate_ez t v : rotate ez t v = V3 (cos t * vx v - sin t * vy v) (sin t * vx v + cos t * vy v) (vz v).
Proof. destruct v as [a b c]. vec_ring. Qed.
Lemma rotate_ey t v : rotate ey t v = V3 (cos t * vx v + sin t * vz v) (vy v) (cos t * vz v - sin t * vx v).
Proof. destruct v as [a b c]. vec_ring. Qed.
Lemma rotate_ex t v : rotate ex t v = V3 (vx v) (cos t * vy v - sin t * vz v) (sin t * vy v + cos t * vz v).
Proof. destruct v as [a b c]. vec_ring. Qed.
Lemma rotate_neg k t v : rotate (vneg k) t v = rotate k (- t) v.
Proof. destruct v as [a b c], k as [d e f]. unfold rotate. rewrite cos_neg, sin_neg. vec_ring. Qed.
Lemma rotate_add k t u v : rotate k t (vadd u v) = vadd (rotate k t u) (rotate k t v).
Proof. destruct u as [a b c], v as [d e f], k as [x y z]. vec_ring. Qed.
Lemma rotate_ez_ez t c : rotate ez t (V3 0 0 c) = V3 0 0 c.
Proof. vec_ring. Qed.
Lemma rotate_ey_ey t c : rotate ey t (V3 0 c 0) = V3 0 c 0.
Proof. vec_ring. Qed.
Lemma rotate_ey_ey_add a b v : rotate ey a (rotate ey b v) = rotate ey (a + b) v.
Proof. destruct v as [x y z]. rewrite !rotate_ey. cbn [vx vy vz]. rewrite cos_plus, sin_plus. f_equal; ring. Qed.
Lemma rotate_zero k v : rotate k 0 v = v.
Proof. destruct v as [a b c], k as [d e f]. unfold rotate. rewrite cos_0, sin_0. vec_ring. Qed.
Lemma rot_ez_PI : rot ez PI = M3 (-1) 0 0 0 (-1) 0 0 0 1.
Proof.
  cbv [rot hat mmul madd mscale I3 ez vx vy vz m00 m01 m02 m10 m11 m12 m20 m21 m22]. rewrite cos_PI, sin_PI. f_equal; ring.
Qed.
Lemma rot_ey_quarter : rot ey (PI / 2) = M3 0 0 1 0 1 0 (-1) 0 0.
Proof.
  cbv [rot hat mmul madd mscale I3 ey vx vy vz m00 m01 m02 m10 m11 m12 m20 m21 m22]. rewrite cos_PI2, sin_PI2. f_equal; ring.
Qed.
Lemma rot_ey_back : rot ey (- (PI / 2)) = M3 0 0 (-1) 0 1 0 1 0 0.
Proof.
  cbv [rot hat mmul madd mscale I3 ey vx vy vz m00 m01 m02 m10 m11 m12 m20 m21 m22].
  rewrite cos_neg, sin_neg, cos_PI2, sin_PI2. f_equal; ring.
Qed.
Lemma rotate_ez_PI v : rotate ez PI v = V3 (- vx v) (- vy v) (vz v).
Proof. rewrite rotate_ez, cos_PI, sin_PI. f_equal; ring. Qed.
Lemma rotate_ex_quarter v : rotate ex (PI / 2) v = V3 (vx v) (- vz v) (vy v).
Proof. rewrite rotate_ex, cos_PI2, sin_PI2. f_equal; ring. Qed.
Lemma rotate_ex_back v : rotate ex (- (PI / 2)) v = V3 (vx v) (vz v) (- vy v).
Proof. rewrite rotate_ex, cos_neg, sin_neg, cos_PI2, sin_PI2. f_equal; ring. Qed.
Lemma rotate_ey_quarter v : rotate ey (PI / 2) v = V3 (vz v) (vy v) (- vx v).
Proof. rewrite rotate_ey, cos_PI2, sin_PI2. f_equal; ring. Qed.

(* ---------- closeness of literals ---------- *)
Lemma zero_close_0 : zero_close 0 = true.
Proof. unfold zero_close. apply isclose_iff. unfold np_close. rewrite Rminus_0_r, Rabs_R0. lra. Qed.
Lemma zero_close_eq x : x = 0 -> zero_close x = true.
Proof. intros ->. exact zero_close_0. Qed.
Lemma isclose_self rt at_ x : 0 <= rt -> 0 <= at_ -> isclose rt at_ x x = true.
Proof.
  intros A B. apply isclose_iff. unfold np_close. rewrite Rminus_diag_eq, Rabs_R0 by auto.
  pose proof (Rmult_le_pos rt (Rabs x) A (Rabs_pos x)). lra.
Qed.
Lemma v_close_refl v : v_close v v = true.
Proof. unfold v_close, v_isclose. rewrite !isclose_self by lra. reflexivity. Qed.
Lemma m_close_refl at_ A : 0 <= at_ -> m_isclose (1/100000) at_ A A = true.
Proof. intros P. unfold m_isclose. rewrite !isclose_self by lra. reflexivity. Qed.
Lemma v_close_far u v : 1 <= Rabs (vx u - vx v) /\ Rabs (vx v) <= 1 \/ 1 <= Rabs (vy u - vy v) /\ Rabs (vy v) <= 1
  \/ 1 <= Rabs (vz u - vz v) /\ Rabs (vz v) <= 1 -> v_close u v = false.
Proof.
  intros H. apply not_true_iff_false. intros C. unfold v_close, v_isclose in C. rewrite !andb_true_iff, !isclose_iff in C.
  unfold np_close in C. lra.
Qed.
Ltac far := apply v_close_far; cbv [vx vy vz vneg ex ey ez];
  unfold Rabs; repeat destruct Rcase_abs; lra.

Lemma array_close_refl H : array_close H H = Ok true.
Proof.
  unfold array_close. rewrite Nat.eqb_refl. f_equal. induction H as [|h H IH]; auto. cbn [combine forallb fst snd].
  rewrite IH, v_close_refl. reflexivity.
Qed.

(* ---------- UR ---------- *)
Lemma flange_ur a b v : act (Tf (of_cols ex ez (vneg ey)) vzero a b) v = V3 (vx v) (- vz v) (vy v).
Proof. destruct v as [x y z]. cbv [act tR tp]. vec_ring. Qed.
Lemma base_ur a b v : act (Tf (M3 (-1) 0 0 0 (-1) 0 0 0 1) vzero a b) v = rotate ez PI v.
Proof. rewrite rotate_ez_PI. destruct v as [x y z]. cbv [act tR tp]. vec_ring. Qed.

(** a half step: -y turned into z *)
Definition X (v : vec3) : vec3 := V3 (vx v) (- vz v) (vy v).
Ltac dh_step := unfold dh; rewrite ?rotate_neg, ?rotate_zero, ?rotate_ex_quarter, ?rotate_ex_back, ?rotate_ey, ?rotate_ez, ?cos_neg, ?sin_neg;
  cbv [X vadd vx vy vz]; f_equal; ring.
Lemma ur_s6 y5 y6 q v : vadd (V3 0 y5 0) (rotate (vneg ey) q (vadd (V3 0 y6 0) (X v))) = X (dh 0 0 (- y5) q (vadd (V3 0 0 (- y6)) v)).
Proof. destruct v as [a b c]. dh_step. Qed.
Lemma ur_s5 y z q v : vadd (V3 0 y z) (rotate (vneg ez) q (X v)) = X (X (vadd (V3 0 (- y) 0) (dh 0 (- (PI / 2)) (- z) q v))).
Proof. destruct v as [a b c]. dh_step. Qed.
Lemma ur_s4 a3 y1 y2 y3 y4 q v : vadd (V3 a3 y3 0) (rotate (vneg ey) q (X (X (vadd (V3 0 (- y4) 0) v))))
  = X (vadd (V3 0 0 (y1 + y2)) (vadd (V3 a3 0 0) (dh 0 (PI / 2) (- (y1 + y2 + y3 + y4)) q v))).
Proof. destruct v as [a b c]. dh_step. Qed.
Lemma ur_s3 a2 a3 y1 y2 q v : vadd (V3 a2 y2 0) (rotate (vneg ey) q (X (vadd (V3 0 0 (y1 + y2)) (vadd (V3 a3 0 0) v))))
  = X (vadd (V3 0 0 y1) (vadd (V3 a2 0 0) (dh a3 0 0 q v))).
Proof. destruct v as [a b c]. dh_step. Qed.
Lemma ur_s2 a2 y1 q v : vadd (V3 0 y1 0) (rotate (vneg ey) q (X (vadd (V3 0 0 y1) (vadd (V3 a2 0 0) v)))) = X (dh a2 0 0 q v).
Proof. destruct v as [a b c]. dh_step. Qed.
Lemma ur_s1 d1 q v : vadd (V3 0 0 d1) (rotate ez q (X v)) = dh 0 (PI / 2) d1 q v.
Proof. destruct v as [a b c]. dh_step. Qed.

Lemma ur_chain d1 y1 a2 y2 a3 y3 y4 z4 y5 y6 q1 q2 q3 q4 q5 q6 v :
  vadd (V3 0 0 d1) (rotate ez q1 (vadd (V3 0 y1 0) (rotate (vneg ey) q2 (vadd (V3 a2 y2 0) (rotate (vneg ey) q3 (vadd (V3 a3 y3 0)
   (rotate (vneg ey) q4 (vadd (V3 0 y4 z4) (rotate (vneg ez) q5 (vadd (V3 0 y5 0) (rotate (vneg ey) q6 (vadd (V3 0 y6 0) (X v)))))))))))))
  = ur_dh (UR d1 a2 a3 (- (y1 + y2 + y3 + y4)) (- z4) (- y5)) q1 q2 q3 q4 q5 q6 (vadd (V3 0 0 (- y6)) v).
Proof.
  unfold ur_dh. cbn [u_d1 u_a2 u_a3 u_d4 u_d5 u_d6].
  rewrite ur_s6, ur_s5, (ur_s4 a3 y1 y2), ur_s3, ur_s2, ur_s1. reflexivity.
Qed.


Lemma ur_home_neg_far : array_close ur_home (map vneg ur_home) = Ok false.
Proof.
  unfold array_close, ur_home. cbn [List.length Nat.eqb map combine forallb fst snd].
  replace (v_close ez (vneg ez)) with false by (symmetry; far). reflexivity.
Qed.
Lemma ur_neg_home_far : array_close (map vneg ur_home) ur_home = Ok false.
Proof.
  unfold array_close, ur_home. cbn [List.length Nat.eqb map combine forallb fst snd].
  replace (v_close (vneg ez) ez) with false by (symmetry; far). reflexivity.
Qed.

Lemma ur_params_minus r : ur_exact r ur_home -> forall d1 y1 a2 y2 a3 y3 y4 z4 y5 y6,
  rP r = [V3 0 0 d1; V3 0 y1 0; V3 a2 y2 0; V3 a3 y3 0; V3 0 y4 z4; V3 0 y5 0; V3 0 y6 0] ->
  robot_to_ur_inv_kin_parameters r = Ok (UR d1 a2 a3 (- (y1 + y2 + y3 + y4)) (- z4) (- y5)).
Proof.
  intros [T H (fa & fb & F) (ba & bb & B) _] d1 y1 a2 y2 a3 y3 y4 z4 y5 y6 P.
  unfold robot_to_ur_inv_kin_parameters. rewrite F, B, H, P, rot_ez_PI. cbn [assert_some bind tR tp].
  rewrite !m_close_refl by lra. rewrite v_close_refl. cbn [assert_ bind].
  rewrite array_close_refl, ur_home_neg_far. cbn [bind assert_ orb].
  cbn [index nth_error bind vx vy vz]. rewrite zero_close_0. cbn [andb assert_ bind slice skipn firstn forallb map vx vy vz].
  rewrite zero_close_0. cbn [andb assert_ bind]. unfold np_sum. cbn [fold_left]. f_equal. f_equal; ring.
Qed.

Lemma ur_flange r : ur_exact r ur_home -> forall d1 y1 a2 y2 a3 y3 y4 z4 y5 y6,
  rP r = [V3 0 0 d1; V3 0 y1 0; V3 a2 y2 0; V3 a3 y3 0; V3 0 y4 z4; V3 0 y5 0; V3 0 y6 0] -> forall q1 q2 q3 q4 q5 q6 x,
  world_flange r [q1; q2; q3; q4; q5; q6] x
  = rotate ez PI (ur_dh (UR d1 a2 a3 (- (y1 + y2 + y3 + y4)) (- z4) (- y5)) q1 q2 q3 q4 q5 q6 (vadd (V3 0 0 (- y6)) x)).
Proof.
  intros [T H (fa & fb & F) (ba & bb & B) _] d1 y1 a2 y2 a3 y3 y4 z4 y5 y6 P q1 q2 q3 q4 q5 q6 x.
  unfold world_flange, flange_point. rewrite B, F, H, P, T. cbn [act_opt]. rewrite base_ur, flange_ur. f_equal.
  change (V3 (vx x) (- vz x) (vy x)) with (X x).
  cbn [hd tl chain joint_motion ur_home]. apply ur_chain.
Qed.

Lemma rotate_inj k t u v : unit3 k -> rotate k t u = rotate k t v -> u = v.
Proof.
  intros U E. rewrite <- !rot_rotate in E by auto.
  assert (S := rot_SO3 k t U). destruct S as [O _]. apply (f_equal (mvec (mT (rot k t)))) in E.
  rewrite <- !mvec_mmul, O, !mvec_I in E. exact E.
Qed.
Lemma dh_inj a al d t u v : dh a al d t u = dh a al d t v -> u = v.
Proof.
  intros E. unfold dh in E. apply rotate_inj in E; [|cbv [unit3 norm2 dot ez vx vy vz]; ring].
  assert (E' : rotate ex al u = rotate ex al v).
  { destruct (rotate ex al u) as [x1 y1 z1], (rotate ex al v) as [x2 y2 z2]. cbv [vadd vx vy vz] in E. injection E as E1 E2 E3. f_equal; lra. }
  apply rotate_inj in E'; auto. cbv [unit3 norm2 dot ex vx vy vz]; ring.
Qed.
Lemma ur_dh_inj p q1 q2 q3 q4 q5 q6 u v : ur_dh p q1 q2 q3 q4 q5 q6 u = ur_dh p q1 q2 q3 q4 q5 q6 v -> u = v.
Proof. intros E. unfold ur_dh in E. repeat apply dh_inj in E. exact E. Qed.

Lemma ur_params_plus r : ur_exact r (map vneg ur_home) -> exists p, robot_to_ur_inv_kin_parameters r = Ok p.
Proof.
  intros [T H (fa & fb & F) (ba & bb & B) (d1 & y1 & a2 & y2 & a3 & y3 & y4 & z4 & y5 & y6 & P)].
  unfold robot_to_ur_inv_kin_parameters. rewrite F, B, H, P, rot_ez_PI. cbn [assert_some bind tR tp].
  rewrite !m_close_refl by lra. rewrite v_close_refl. cbn [assert_ bind].
  rewrite array_close_refl, ur_neg_home_far. cbn [bind assert_ orb map].
  cbn [index nth_error bind slice skipn firstn forallb map].
  cbv [mvec vx vy vz m00 m01 m02 m10 m11 m12 m20 m21 m22 of_cols].
  repeat match goal with |- context [zero_close ?x] => rewrite (zero_close_eq x) by ring end.
  cbn [andb assert_ bind]. eexists. reflexivity.
Qed.

Lemma ez_quarter v : rotate ez (PI / 2) v = V3 (- vy v) (vx v) (vz v).
Proof. rewrite rotate_ez, cos_PI2, sin_PI2. f_equal; ring. Qed.
Lemma vneg_ez_quarter v : rotate (vneg ez) (PI / 2) v = V3 (vy v) (- vx v) (vz v).
Proof. rewrite rotate_neg, rotate_ez, cos_neg, sin_neg, cos_PI2, sin_PI2. f_equal; ring. Qed.
Lemma ur_dh_side p x : vy (ur_dh p (PI / 2) 0 0 0 0 0 x) = u_a2 p + u_a3 p + vx x.
Proof.
  destruct x as [a b c]. unfold ur_dh, dh. rewrite !rotate_zero, ez_quarter, !rotate_ex_quarter, !rotate_ex_back.
  cbn [vadd vx vy vz]. ring.
Qed.
Lemma ur_plus_side r d1 y1 a2 y2 a3 y3 y4 z4 y5 y6 x a b : rtype r = [Rotary; Rotary; Rotary; Rotary; Rotary; Rotary] ->
  rH r = map vneg ur_home -> rflange r = Some (Tf (of_cols ex ez (vneg ey)) vzero a b) ->
  rP r = [V3 0 0 d1; V3 0 y1 0; V3 a2 y2 0; V3 a3 y3 0; V3 0 y4 z4; V3 0 y5 0; V3 0 y6 0] ->
  vy (flange_point r [PI / 2; 0; 0; 0; 0; 0] x) = - (a2 + a3 + vx x).
Proof.
  intros T H F P. unfold flange_point. rewrite F, H, P, T. cbn [act_opt hd tl chain joint_motion ur_home map].
  rewrite flange_ur, !rotate_zero, vneg_ez_quarter. cbn [vadd vx vy vz]. ring.
Qed.
Lemma ur_plus_differs r p : ur_exact r (map vneg ur_home) -> ~ ur_solves p (world_flange r).
Proof.
  intros [T H (fa & fb & F) (ba & bb & B) (d1 & y1 & a2 & y2 & a3 & y3 & y4 & z4 & y5 & y6 & P)] S.
  assert (E : forall x, flange_point r [PI / 2; 0; 0; 0; 0; 0] x = ur_dh p (PI / 2) 0 0 0 0 0 x).
  { intros x. pose proof (S (PI / 2) 0 0 0 0 0 x) as E. unfold world_flange in E. rewrite B in E. cbn [act_opt] in E.
    rewrite base_ur in E. apply rotate_inj in E; [exact E|]. cbv [unit3 norm2 dot ez vx vy vz]; ring. }
  pose proof (f_equal vy (E vzero)) as E0. pose proof (f_equal vy (E ex)) as E1.
  rewrite ur_dh_side, (ur_plus_side r d1 y1 a2 y2 a3 y3 y4 z4 y5 y6 _ fa fb T H F P) in E0.
  rewrite ur_dh_side, (ur_plus_side r d1 y1 a2 y2 a3 y3 y4 z4 y5 y6 _ fa fb T H F P) in E1.
  cbn [vx vzero ex] in E0, E1. lra.
Qed.

Lemma ur_urdf_layout r : rH r = [ez; ey; ey; ey; vneg ez; ey] -> robot_to_ur_inv_kin_parameters r = Err AssertionError.
Proof.
  intros H. unfold robot_to_ur_inv_kin_parameters. rewrite H.
  destruct (rflange r) as [T|]; [|reflexivity]. cbn [assert_some bind].
  destruct (m_isclose _ _ (tR T) _); [|reflexivity]. cbn [assert_ bind].
  destruct (v_close (tp T) vzero); [|reflexivity]. cbn [assert_ bind].
  destruct (rbase r) as [B|]; [|reflexivity]. cbn [assert_some bind].
  destruct (m_isclose _ _ (tR B) _); [|reflexivity]. cbn [assert_ bind].
  destruct (v_close (tp B) vzero); [|reflexivity]. cbn [assert_ bind].
  unfold array_close, ur_home. cbn [List.length Nat.eqb map combine forallb fst snd].
  replace (v_close ey (vneg ey)) with false by (symmetry; far).
  replace (v_close ez (vneg ez)) with false by (symmetry; far).
  rewrite v_close_refl. reflexivity.
Qed.

(* ---------- rounding ---------- *)
Lemma rint_near x : Rabs (IZR (rint x) - x) <= 1/2.
Proof.
  unfold rint. pose proof (base_Int_part x) as [A B].
  destruct (Rltb (x - IZR (Int_part x)) (1/2)) eqn:E1; [apply Rltb_true in E1; unfold Rabs; destruct Rcase_abs; lra|].
  destruct (Rltb (1/2) (x - IZR (Int_part x))) eqn:E2.
  { apply Rltb_true in E2. rewrite plus_IZR. unfold Rabs; destruct Rcase_abs; lra. }
  assert (E : x - IZR (Int_part x) = 1/2).
  { apply Rltb_false in E1, E2. lra. }
  destruct (Z.even _); rewrite ?plus_IZR; unfold Rabs; destruct Rcase_abs; lra.
Qed.
Lemma np_round_near n x : Rabs (np_round n x - x) <= 1/2 / 10 ^ n.
Proof.
  unfold np_round. assert (P : 0 < 10 ^ n) by (apply pow_lt; lra).
  replace (IZR (rint (x * 10 ^ n)) / 10 ^ n - x) with ((IZR (rint (x * 10 ^ n)) - x * 10 ^ n) / 10 ^ n) by (field; lra).
  unfold Rdiv at 1. rewrite Rabs_mult, (Rabs_right (/ 10 ^ n)) by (left; apply Rinv_0_lt_compat, P).
  apply Rmult_le_compat_r; [left; apply Rinv_0_lt_compat, P|]. apply rint_near.
Qed.
Lemma rint_int z : rint (IZR z) = z.
Proof.
  unfold rint. assert (E : Int_part (IZR z) = z).
  { pose proof (base_Int_part (IZR z)) as [A B].
    assert (A' : (Int_part (IZR z) <= z)%Z) by (apply le_IZR, A).
    assert (B' : (z < Int_part (IZR z) + 1)%Z) by (apply lt_IZR; rewrite plus_IZR; lra). lia. }
  rewrite E. rewrite Rminus_diag_eq by reflexivity. unfold Rltb. destruct (Rlt_dec 0 (1/2)); [reflexivity|lra].
Qed.
Lemma np_round_int n z : np_round n (IZR z) = IZR z.
Proof.
  unfold np_round. replace (IZR z * 10 ^ n) with (IZR (z * 10 ^ Z.of_nat n)).
  - rewrite rint_int, mult_IZR, <- pow_IZR. field. apply pow_nonzero. lra.
  - rewrite mult_IZR, <- pow_IZR. reflexivity.
Qed.

(* ---------- OPW ---------- *)
Lemma along_sign h e : v_close (vneg e) e = false -> along h e ->
  exists s, (s = 1 \/ s = -1)%Z /\ axis_sign h e = s /\ forall t x, rotate h t x = rotate e (IZR s * t) x.
Proof.
  intros N [->| ->].
  - exists 1%Z. unfold axis_sign. rewrite v_close_refl. split; auto. split; auto. intros t x. f_equal. lra.
  - exists (-1)%Z. unfold axis_sign. rewrite N, v_close_refl. split; auto. split; auto. intros t x. rewrite rotate_neg. f_equal. lra.
Qed.
Lemma sign_nonzero h e s : (s = 1 \/ s = -1)%Z -> axis_sign h e = s -> axis_ok h e = true.
Proof. intros S E. unfold axis_ok. rewrite E. destruct S as [-> | ->]; reflexivity. Qed.
Lemma v_close_neg e : e = ex \/ e = ey \/ e = ez -> v_close (vneg e) e = false.
Proof. intros [->|[->| ->]]; far. Qed.
Lemma vneg_neg e : vneg (vneg e) = e.
Proof. destruct e as [a b c]. cbv [vneg vx vy vz]. f_equal; ring. Qed.
Lemma along_axis_ok h k e : along h e -> along k e -> axis_ok h k = true.
Proof.
  intros [->| ->] [->| ->]; unfold axis_ok, axis_sign; rewrite ?vneg_neg, ?v_close_refl; auto; destruct (v_close _ _); reflexivity.
Qed.
Lemma along_mvec A h e : along h e -> along (mvec A h) (mvec A e).
Proof.
  intros [->| ->]; [left; reflexivity|right]. destruct A as [a b c d f g i j k], e as [x y z]. cbv [mvec vneg vx vy vz m00 m01 m02 m10 m11 m12 m20 m21 m22]. f_equal; ring.
Qed.
Definition A0 : mat3 := M3 0 0 (-1) 0 1 0 1 0 0.
Lemma A0_ex : mvec A0 ex = ez. Proof. unfold A0. vec_ring. Qed.
Lemma A0_ey : mvec A0 ey = ey. Proof. unfold A0. vec_ring. Qed.
Lemma A0_vec v : mvec A0 v = V3 (- vz v) (vy v) (vx v).
Proof. destruct v as [a b c]. unfold A0. vec_ring. Qed.
Lemma ez_not_ex h : along h ez -> axis_ok h ex = false.
Proof.
  intros [->| ->]; unfold axis_ok, axis_sign.
  - replace (v_close ez ex) with false by (symmetry; far). replace (v_close ez (vneg ex)) with false by (symmetry; far). reflexivity.
  - replace (v_close (vneg ez) ex) with false by (symmetry; far).
    replace (v_close (vneg ez) (vneg ex)) with false by (symmetry; far). reflexivity.
Qed.
Lemma flange_opw a b v : act (Tf (of_cols (vneg ez) ey ex) vzero a b) v = rotate ey (PI / 2) v.
Proof. rewrite rotate_ey_quarter. destruct v as [x y z]. cbv [act tR tp]. vec_ring. Qed.

(** the arm standing upright, before any parameter is read off *)
Definition upright (t1 t2 t3 t4 t5 t6 z0 : R) (p1 p2 p3 : vec3) (l4 l5 l6 : R) (x : vec3) : vec3 :=
  vadd (V3 0 0 z0) (rotate ez t1 (vadd p1 (rotate ey t2 (vadd p2 (rotate ey t3 (vadd p3
    (rotate ez t4 (vadd (V3 0 0 l4) (rotate ey t5 (vadd (V3 0 0 l5) (rotate ez t6 (vadd (V3 0 0 l6) x)))))))))))).
Definition arm (a1 a2 b c1 c2 c3 c4 t1 t2 t3 t4 t5 t6 : R) (x : vec3) : vec3 :=
  rotate ez t1 (vadd (V3 a1 b c1) (rotate ey t2 (vadd (V3 0 0 c2) (rotate ey t3 (vadd (V3 a2 0 c3)
    (rotate ez t4 (rotate ey t5 (rotate ez t6 (vadd (V3 0 0 c4) x))))))))).
Lemma upright_arm t1 t2 t3 t4 t5 t6 z0 p1 p2 p3 l4 l5 l6 x : vx p2 = 0 ->
  upright t1 t2 t3 t4 t5 t6 z0 p1 p2 p3 l4 l5 l6 x =
  arm (vx p1) (vx p3) (vy p1 + vy p2 + vy p3) (z0 + vz p1) (vz p2) (vz p3 + l4) (l5 + l6) t1 t2 t3 t4 t5 t6 x.
Proof.
  intros Z. unfold upright, arm. destruct p1 as [x1 y1 z1], p2 as [x2 y2 z2], p3 as [x3 y3 z3]. cbn [vx vy vz] in *. subst x2.
  assert (E : vadd (V3 0 0 l5) (rotate ez t6 (vadd (V3 0 0 l6) x)) = rotate ez t6 (vadd (V3 0 0 (l5 + l6)) x)).
  { rewrite !rotate_ez. destruct x as [a b c]. cbv [vadd vx vy vz]. f_equal; ring. }
  rewrite E. clear E. generalize (rotate ez t6 (vadd (V3 0 0 (l5 + l6)) x)). clear x. intros x.
  generalize (rotate ey t5 x). clear x. intros x.
  assert (E : vadd (V3 x3 y3 z3) (rotate ez t4 (vadd (V3 0 0 l4) x)) = vadd (V3 x3 y3 (z3 + l4)) (rotate ez t4 x)).
  { rewrite !rotate_ez. destruct x as [a b c]. cbv [vadd vx vy vz]. f_equal; ring. }
  rewrite E. clear E. generalize (rotate ez t4 x). clear x. intros [a b c].
  rewrite !rotate_ey, !rotate_ez. cbv [vadd vx vy vz]. f_equal; ring.
Qed.
(** moving a slanted upper arm upright *)
Lemma upright_slant t1 t2 t3 t4 t5 t6 z0 p1 p2 p3 l4 l5 l6 x q :
  upright t1 t2 t3 t4 t5 t6 z0 p1 p2 p3 l4 l5 l6 x = upright t1 (t2 - q) (t3 + q) t4 t5 t6 z0 p1 (rotate ey q p2) p3 l4 l5 l6 x.
Proof.
  unfold upright. f_equal. f_equal. f_equal.
  generalize (vadd p3 (rotate ez t4 (vadd (V3 0 0 l4) (rotate ey t5 (vadd (V3 0 0 l5) (rotate ez t6 (vadd (V3 0 0 l6) x))))))). intros w.
  replace (t3 + q) with (q + t3) by ring. rewrite <- (rotate_ey_ey_add q t3), <- rotate_add, rotate_ey_ey_add.
  f_equal. ring.
Qed.
Lemma slant_zero p : vx (rotate ey (- atan2 (vx p) (vz p)) p) = 0.
Proof.
  destruct p as [x y z]. cbn [vx vz]. rewrite rotate_ey, cos_neg, sin_neg. cbn [vx vy vz].
  pose proof (atan2_cos x z) as C. pose proof (atan2_sin x z) as D.
  assert (K : cos (atan2 x z) * (sqrt (z * z + x * x) * sin (atan2 x z)) - sin (atan2 x z) * (sqrt (z * z + x * x) * cos (atan2 x z)) = 0) by ring.
  rewrite C, D in K. lra.
Qed.
(** the x-outstretched chain is the upright one with a quarter turn more at the bend *)
Lemma quarter_x t v : rotate ex t (rotate ey (PI / 2) v) = rotate ey (PI / 2) (rotate ez t v).
Proof.
  rewrite !rotate_ey_quarter, rotate_ex, rotate_ez. destruct v as [a b c]. cbn [vx vy vz]. f_equal; ring.
Qed.
Lemma quarter_y t v : rotate ey t (rotate ey (PI / 2) v) = rotate ey (PI / 2) (rotate ey t v).
Proof. rewrite !rotate_ey_ey_add. f_equal. ring. Qed.
Lemma quarter_len l v : vadd (vscale l ex) (rotate ey (PI / 2) v) = rotate ey (PI / 2) (vadd (V3 0 0 l) v).
Proof. rewrite !rotate_ey_quarter. destruct v as [a b c]. cbv [vadd vscale ex vx vy vz]. f_equal; ring. Qed.
Lemma quarter_vec p v : vadd p (rotate ey (PI / 2) v) = rotate ey (PI / 2) (vadd (mvec A0 p) v).
Proof. rewrite !rotate_ey_quarter, A0_vec. destruct v as [a b c], p as [x y z]. cbv [vadd vx vy vz]. f_equal; ring. Qed.
Definition stretched (e : vec3) (t1 t2 t3 t4 t5 t6 z0 : R) (p1 p2 p3 : vec3) (l4 l5 l6 : R) (x : vec3) : vec3 :=
  vadd (vscale z0 ez) (rotate ez t1 (vadd p1 (rotate ey t2 (vadd p2 (rotate ey t3 (vadd p3
    (rotate e t4 (vadd (vscale l4 e) (rotate ey t5 (vadd (vscale l5 e) (rotate e t6 (vadd (vscale l6 e) (rotate ey (PI / 2) x))))))))))))).
Lemma stretched_bend3 t1 t2 t3 t4 t5 t6 z0 p1 p2 p3 l4 l5 l6 x :
  stretched ex t1 t2 t3 t4 t5 t6 z0 p1 p2 p3 l4 l5 l6 x = upright t1 t2 (t3 + PI / 2) t4 t5 t6 z0 p1 p2 (mvec A0 p3) l4 l5 l6 x.
Proof.
  unfold stretched, upright. rewrite quarter_len, quarter_x, quarter_len, quarter_y, quarter_len, quarter_x, quarter_vec, rotate_ey_ey_add.
  f_equal. cbv [vscale ez vx vy vz]. f_equal; ring.
Qed.
Lemma stretched_bend2 t1 t2 t3 t4 t5 t6 z0 p1 p2 p3 l4 l5 l6 x :
  stretched ex t1 t2 t3 t4 t5 t6 z0 p1 p2 p3 l4 l5 l6 x = upright t1 (t2 + PI / 2) t3 t4 t5 t6 z0 p1 (mvec A0 p2) (mvec A0 p3) l4 l5 l6 x.
Proof.
  unfold stretched, upright. rewrite quarter_len, quarter_x, quarter_len, quarter_y, quarter_len, quarter_x, quarter_vec, quarter_y, quarter_vec, rotate_ey_ey_add.
  f_equal. cbv [vscale ez vx vy vz]. f_equal; ring.
Qed.
Lemma stretched_up t1 t2 t3 t4 t5 t6 z0 p1 p2 p3 l4 l5 l6 x :
  stretched ez t1 t2 t3 t4 t5 t6 z0 p1 p2 p3 l4 l5 l6 x = upright t1 t2 t3 t4 t5 t6 z0 p1 p2 p3 l4 l5 l6 (rotate ey (PI / 2) x).
Proof.
  unfold stretched, upright.
  assert (E : forall l, vscale l ez = V3 0 0 l) by (intros l; cbv [vscale ez vx vy vz]; f_equal; ring).
  rewrite !E. reflexivity.
Qed.

(** the second half of robot_to_opw_inv_kin_parameters *)
Definition opw_finish (H2 P2 : list vec3) (off1 off2 : R) : out opw_params :=
  let* c := index P2 2 in
  let '(P2, off1, off2) :=
    if zero_close (vx c) then (P2, off1, off2)
    else let q := - atan2 (vx c) (vz c) in
         (set_col 2 (mvec (rot ey q) c) P2, off1 + q, off2 - q) in
  let* p0 := index P2 0 in let* p1 := index P2 1 in let* p2 := index P2 2 in let* p3 := index P2 3 in
  let* _ := assert_ (zero_close (vx p0) && zero_close (vy p0)) in
  let* _ := assert_ (forallb (fun p => zero_close (vx p) && zero_close (vy p)) (skipn 4 P2)) in
  let* _ := assert_ (zero_close (vx p2)) in
  let* p4 := index P2 4 in let* p5 := index P2 5 in let* p6 := index P2 6 in
  let* g0 := index H2 0 in let* g1 := index H2 1 in let* g2 := index H2 2 in
  let* g3 := index H2 3 in let* g4 := index H2 4 in let* g5 := index H2 5 in
  let signs := map (fun p => np_round 8 (IZR (axis_sign (fst p) (snd p))))
                   [(g0, ez); (g1, ey); (g2, ey); (g3, ez); (g4, ey); (g5, ez)] in
  Ok (OPW (np_round 6 (vx p1)) (np_round 6 (vx p3)) (np_round 6 (vy p1 + vy p2 + vy p3))
          (np_round 6 (vz p0 + vz p1)) (np_round 6 (vz p2)) (np_round 6 (vz p3 + vz p4)) (np_round 6 (vz p5 + vz p6))
          (map (np_round 8) [0; off1; off2; 0; 0; 0]) signs).

Lemma round6 x : within (1/2000000) (np_round 6 x) x.
Proof. unfold within. pose proof (np_round_near 6 x) as H. lra. Qed.
Lemma round8 x : within (1/200000000) (np_round 8 x) x.
Proof. unfold within. pose proof (np_round_near 8 x) as H. lra. Qed.

Lemma not_tiny_close x : not_tiny x -> zero_close x = true -> x = 0.
Proof.
  intros [H|H] C; auto. unfold zero_close in C. apply isclose_iff in C. unfold np_close in C. rewrite Rminus_0_r, Rabs_R0 in C. lra.
Qed.

Lemma opw_finish_ok h1 h2 h3 h4 h5 h6 s1 s2 s3 s4 s5 s6 z0 p1 p2 p3 l4 l5 l6 off1 off2 :
  axis_sign h1 ez = s1 -> axis_sign h2 ey = s2 -> axis_sign h3 ey = s3 -> axis_sign h4 ez = s4 -> axis_sign h5 ey = s5 ->
  axis_sign h6 ez = s6 -> not_tiny (vx p2) ->
  exists p p0, opw_finish [h1; h2; h3; h4; h5; h6] [V3 0 0 z0; p1; p2; p3; V3 0 0 l4; V3 0 0 l5; V3 0 0 l6] off1 off2 = Ok p /\
    rounded p p0 /\ o_signs p0 = map IZR [s1; s2; s3; s4; s5; s6] /\ forall q1 q2 q3 q4 q5 q6 x,
    opw_arm p0 q1 q2 q3 q4 q5 q6 x =
    upright (IZR s1 * q1) (IZR s2 * q2 - off1) (IZR s3 * q3 - off2) (IZR s4 * q4) (IZR s5 * q5) (IZR s6 * q6) z0 p1 p2 p3 l4 l5 l6 x.
Proof.
  intros <- <- <- <- <- <- NT. unfold opw_finish.
  cbn [index nth_error bind]. destruct (zero_close (vx p2)) eqn:Z.
  - pose proof (not_tiny_close _ NT Z) as Z0. cbn [index nth_error bind skipn forallb vx vy vz].
    rewrite Z, zero_close_0. cbn [andb assert_ bind index nth_error map fst snd].
    eexists. exists (OPW (vx p1) (vx p3) (vy p1 + vy p2 + vy p3) (z0 + vz p1) (vz p2) (vz p3 + l4) (l5 + l6) [0; off1; off2; 0; 0; 0]
      [IZR (axis_sign h1 ez); IZR (axis_sign h2 ey); IZR (axis_sign h3 ey); IZR (axis_sign h4 ez); IZR (axis_sign h5 ey); IZR (axis_sign h6 ez)]).
    split; [reflexivity|]. split.
    + split; cbn [o_a1 o_a2 o_b o_c1 o_c2 o_c3 o_c4 o_offsets o_signs]; try apply round6.
      * repeat (constructor; [apply round8|]); constructor.
      * rewrite !np_round_int. reflexivity.
    + split; [reflexivity|]. intros q1 q2 q3 q4 q5 q6 x. rewrite upright_arm by exact Z0. unfold opw_arm, arm, opw_angle.
      cbn [o_a1 o_a2 o_b o_c1 o_c2 o_c3 o_c4 o_offsets o_signs nth]. rewrite !Rminus_0_r. reflexivity.
  - set (q := - atan2 (vx p2) (vz p2)).
    assert (Eq : mvec (rot ey q) p2 = rotate ey q p2) by (apply rot_rotate; cbv [unit3 norm2 dot ey vx vy vz]; ring).
    rewrite Eq. pose proof (slant_zero p2 : vx (rotate ey q p2) = 0) as Z0.
    unfold set_col. cbn [firstn skipn app index nth_error bind forallb vx vy vz].
    rewrite (zero_close_eq _ Z0), zero_close_0. cbn [andb assert_ bind index nth_error map fst snd].
    eexists. exists (OPW (vx p1) (vx p3) (vy p1 + vy (rotate ey q p2) + vy p3) (z0 + vz p1) (vz (rotate ey q p2)) (vz p3 + l4) (l5 + l6)
      [0; off1 + q; off2 - q; 0; 0; 0]
      [IZR (axis_sign h1 ez); IZR (axis_sign h2 ey); IZR (axis_sign h3 ey); IZR (axis_sign h4 ez); IZR (axis_sign h5 ey); IZR (axis_sign h6 ez)]).
    split; [reflexivity|]. split.
    + split; cbn [o_a1 o_a2 o_b o_c1 o_c2 o_c3 o_c4 o_offsets o_signs]; try apply round6.
      * repeat (constructor; [apply round8|]); constructor.
      * rewrite !np_round_int. reflexivity.
    + split; [reflexivity|]. intros q1 q2 q3 q4 q5 q6 x. rewrite (upright_slant _ _ _ _ _ _ _ _ _ _ _ _ _ _ q). rewrite upright_arm by exact Z0.
      unfold opw_arm, arm, opw_angle.
      cbn [o_a1 o_a2 o_b o_c1 o_c2 o_c3 o_c4 o_offsets o_signs nth]. rewrite !Rminus_0_r.
      replace (IZR (axis_sign h2 ey) * q2 - (off1 + q)) with (IZR (axis_sign h2 ey) * q2 - off1 - q) by ring.
      replace (IZR (axis_sign h3 ey) * q3 - (off2 - q)) with (IZR (axis_sign h3 ey) * q3 - off2 + q) by ring. reflexivity.
Qed.

Lemma opw_start r e : e = ex \/ e = ez -> opw_exact r e -> forall h1 h2 h3 h4 h5 h6 z0 p1 p2 p3 l4 l5 l6,
  rH r = [h1; h2; h3; h4; h5; h6] -> rP r = [vscale z0 ez; p1; p2; p3; vscale l4 e; vscale l5 e; vscale l6 e] ->
  along h1 ez -> along h2 ey -> along h3 ey -> along h4 e -> along h5 ey -> along h6 e ->
  robot_to_opw_inv_kin_parameters r =
  match opw_bend h6 p2 p3 (vscale l4 e) with
  | None => opw_finish (rH r) (rP r) 0 0
  | Some 2%nat => opw_finish (turn_from 2 A0 (rH r)) (turn_from 2 A0 (rP r)) (- (PI / 2)) 0
  | Some k => opw_finish (turn_from k A0 (rH r)) (turn_from k A0 (rP r)) 0 (- (PI / 2))
  end.
Proof.
  intros He [T (fa & fb & F) _] h1 h2 h3 h4 h5 h6 z0 p1 p2 p3 l4 l5 l6 H P A1 A2 A3 A4 A5 A6.
  unfold robot_to_opw_inv_kin_parameters. rewrite F, T, rot_ey_back. cbn [assert_some bind tR tp List.length Nat.eqb assert_].
  assert (EF : of_cols (vneg ez) ey ex = rot ey (PI / 2)).
  { rewrite rot_ey_quarter. vec_ring. }
  rewrite EF, m_close_refl by lra. rewrite v_close_refl. cbn [assert_ bind]. rewrite H. cbn [index nth_error bind].
  rewrite (along_axis_ok h1 ez ez A1) by (left; reflexivity). rewrite (along_axis_ok h2 ey ey A2) by (left; reflexivity).
  rewrite (along_axis_ok h3 ey ey A3) by (left; reflexivity). rewrite (along_axis_ok h5 ey ey A5) by (left; reflexivity).
  rewrite (along_axis_ok h4 h6 e A4 A6). cbn [assert_ bind].
  assert (O : (axis_ok h6 ez || axis_ok h6 ex)%bool = true).
  { destruct He as [-> | ->]; [rewrite (along_axis_ok h6 ex ex A6) by (left; reflexivity); apply orb_true_r|].
    rewrite (along_axis_ok h6 ez ez A6) by (left; reflexivity). reflexivity. }
  rewrite O. cbn [assert_ bind]. rewrite P. cbn [index nth_error bind].
  destruct (opw_bend h6 p2 p3 (vscale l4 e)) as [[|[|[|k]]]|]; reflexivity.
Qed.

Lemma bend_x h6 p2 p3 p4 : along h6 ex -> opw_bend h6 p2 p3 p4 = Some 2%nat \/ opw_bend h6 p2 p3 p4 = Some 3%nat.
Proof.
  intros A. unfold opw_bend. rewrite (along_axis_ok h6 ex ex A) by (left; reflexivity).
  destruct (abs_gt _ _); auto. destruct (abs_gt _ _); auto.
Qed.

Lemma opw_chain r e : opw_exact r e -> forall h1 h2 h3 h4 h5 h6 z0 p1 p2 p3 l4 l5 l6,
  rH r = [h1; h2; h3; h4; h5; h6] -> rP r = [vscale z0 ez; p1; p2; p3; vscale l4 e; vscale l5 e; vscale l6 e] ->
  forall s1 s2 s3 s4 s5 s6,
  (forall t x, rotate h1 t x = rotate ez (IZR s1 * t) x) -> (forall t x, rotate h2 t x = rotate ey (IZR s2 * t) x) ->
  (forall t x, rotate h3 t x = rotate ey (IZR s3 * t) x) -> (forall t x, rotate h4 t x = rotate e (IZR s4 * t) x) ->
  (forall t x, rotate h5 t x = rotate ey (IZR s5 * t) x) -> (forall t x, rotate h6 t x = rotate e (IZR s6 * t) x) ->
  forall q1 q2 q3 q4 q5 q6 x,
  flange_point r [q1; q2; q3; q4; q5; q6] x =
  stretched e (IZR s1 * q1) (IZR s2 * q2) (IZR s3 * q3) (IZR s4 * q4) (IZR s5 * q5) (IZR s6 * q6) z0 p1 p2 p3 l4 l5 l6 x.
Proof.
  intros [T (fa & fb & F) _] h1 h2 h3 h4 h5 h6 z0 p1 p2 p3 l4 l5 l6 H P s1 s2 s3 s4 s5 s6 R1 R2 R3 R4 R5 R6 q1 q2 q3 q4 q5 q6 x.
  unfold flange_point, stretched. rewrite F, H, P, T. cbn [act_opt hd tl chain joint_motion].
  rewrite flange_opw, R1, R2, R3, R4, R5, R6. reflexivity.
Qed.

Lemma A0_len l : mvec A0 (vscale l ex) = V3 0 0 l.
Proof. unfold A0. vec_ring. Qed.
Lemma scale_ez l : vscale l ez = V3 0 0 l.
Proof. vec_ring. Qed.
Lemma axis_sign_A0 h : along h ex -> axis_sign (mvec A0 h) ez = axis_sign h ex.
Proof.
  intros [-> | ->].
  - rewrite A0_ex. unfold axis_sign. rewrite !v_close_refl. reflexivity.
  - replace (mvec A0 (vneg ex)) with (vneg ez) by (unfold A0; vec_ring).
    unfold axis_sign. rewrite !v_close_refl, !v_close_neg by auto. reflexivity.
Qed.
Lemma axis_sign_A0_ey h : along h ey -> mvec A0 h = h.
Proof. intros [-> | ->]; unfold A0; vec_ring. Qed.

Lemma opw_x r : opw_exact r ex -> exists p p0,
  robot_to_opw_inv_kin_parameters r = Ok p /\ rounded p p0 /\ opw_solves p0 (flange_point r) /\
  exists z, o_signs p0 = map IZR z.
Proof.
  intros X. destruct (oe_geom r ex X) as (h1 & h2 & h3 & h4 & h5 & h6 & z0 & p1 & p2 & p3 & l4 & l5 & l6 & H & P & A1 & A2 & A3 & A4 & A5 & A6 & N1 & N2).
  destruct (along_sign h1 ez (v_close_neg ez ltac:(auto)) A1) as (s1 & _ & S1 & R1).
  destruct (along_sign h2 ey (v_close_neg ey ltac:(auto)) A2) as (s2 & _ & S2 & R2).
  destruct (along_sign h3 ey (v_close_neg ey ltac:(auto)) A3) as (s3 & _ & S3 & R3).
  destruct (along_sign h4 ex (v_close_neg ex ltac:(auto)) A4) as (s4 & _ & S4 & R4).
  destruct (along_sign h5 ey (v_close_neg ey ltac:(auto)) A5) as (s5 & _ & S5 & R5).
  destruct (along_sign h6 ex (v_close_neg ex ltac:(auto)) A6) as (s6 & _ & S6 & R6).
  rewrite <- (axis_sign_A0 h4 A4) in S4. rewrite <- (axis_sign_A0 h6 A6) in S6.
  pose proof (opw_chain r ex X h1 h2 h3 h4 h5 h6 z0 p1 p2 p3 l4 l5 l6 H P s1 s2 s3 s4 s5 s6 R1 R2 R3 R4 R5 R6) as CH.
  rewrite (opw_start r ex (or_introl eq_refl) X h1 h2 h3 h4 h5 h6 z0 p1 p2 p3 l4 l5 l6 H P A1 A2 A3 A4 A5 A6).
  rewrite H, P. destruct (bend_x h6 p2 p3 (vscale l4 ex) A6) as [-> | ->].
  - unfold turn_from. cbn [firstn skipn map app].
    rewrite !A0_len, (axis_sign_A0_ey h3 A3), (axis_sign_A0_ey h5 A5), scale_ez.
    assert (NT : not_tiny (vx (mvec A0 p2))).
    { rewrite A0_vec. cbn [vx]. unfold not_tiny in *. rewrite Rabs_Ropp. destruct N2 as [-> | N2]; [left; ring|auto]. }
    destruct (opw_finish_ok h1 h2 h3 (mvec A0 h4) h5 (mvec A0 h6) s1 s2 s3 s4 s5 s6 z0 p1 (mvec A0 p2) (mvec A0 p3) l4 l5 l6 (- (PI / 2)) 0
      S1 S2 S3 S4 S5 S6 NT) as (p & p0 & E & RD & SG0 & U).
    exists p, p0. split; [exact E|]. split; [exact RD|]. split; [|eexists; exact SG0]. intros q1 q2 q3 q4 q5 q6 x. rewrite CH, U, stretched_bend2.
    rewrite Rminus_0_r. f_equal. ring.
  - unfold turn_from. cbn [firstn skipn map app].
    rewrite !A0_len, (axis_sign_A0_ey h5 A5), scale_ez.
    destruct (opw_finish_ok h1 h2 h3 (mvec A0 h4) h5 (mvec A0 h6) s1 s2 s3 s4 s5 s6 z0 p1 p2 (mvec A0 p3) l4 l5 l6 0 (- (PI / 2))
      S1 S2 S3 S4 S5 S6 N1) as (p & p0 & E & RD & SG0 & U).
    exists p, p0. split; [exact E|]. split; [exact RD|]. split; [|eexists; exact SG0]. intros q1 q2 q3 q4 q5 q6 x. rewrite CH, U, stretched_bend3.
    rewrite Rminus_0_r. f_equal. ring.
Qed.

Lemma opw_z r : opw_exact r ez -> exists p p0,
  robot_to_opw_inv_kin_parameters r = Ok p /\ rounded p p0 /\
  (forall q1 q2 q3 q4 q5 q6 x, flange_point r [q1; q2; q3; q4; q5; q6] x = opw_arm p0 q1 q2 q3 q4 q5 q6 (rotate ey (PI / 2) x)).
Proof.
  intros X. destruct (oe_geom r ez X) as (h1 & h2 & h3 & h4 & h5 & h6 & z0 & p1 & p2 & p3 & l4 & l5 & l6 & H & P & A1 & A2 & A3 & A4 & A5 & A6 & N1 & N2).
  destruct (along_sign h1 ez (v_close_neg ez ltac:(auto)) A1) as (s1 & _ & S1 & R1).
  destruct (along_sign h2 ey (v_close_neg ey ltac:(auto)) A2) as (s2 & _ & S2 & R2).
  destruct (along_sign h3 ey (v_close_neg ey ltac:(auto)) A3) as (s3 & _ & S3 & R3).
  destruct (along_sign h4 ez (v_close_neg ez ltac:(auto)) A4) as (s4 & _ & S4 & R4).
  destruct (along_sign h5 ey (v_close_neg ey ltac:(auto)) A5) as (s5 & _ & S5 & R5).
  destruct (along_sign h6 ez (v_close_neg ez ltac:(auto)) A6) as (s6 & _ & S6 & R6).
  pose proof (opw_chain r ez X h1 h2 h3 h4 h5 h6 z0 p1 p2 p3 l4 l5 l6 H P s1 s2 s3 s4 s5 s6 R1 R2 R3 R4 R5 R6) as CH.
  rewrite (opw_start r ez (or_intror eq_refl) X h1 h2 h3 h4 h5 h6 z0 p1 p2 p3 l4 l5 l6 H P A1 A2 A3 A4 A5 A6).
  rewrite H, P. replace (opw_bend h6 p2 p3 (vscale l4 ez)) with (@None nat) by (unfold opw_bend; rewrite (ez_not_ex h6 A6); reflexivity).
  rewrite !scale_ez.
  destruct (opw_finish_ok h1 h2 h3 h4 h5 h6 s1 s2 s3 s4 s5 s6 z0 p1 p2 p3 l4 l5 l6 0 0
      S1 S2 S3 S4 S5 S6 N1) as (p & p0 & E & RD & SG0 & U).
  exists p, p0. split; [exact E|]. split; [exact RD|]. intros q1 q2 q3 q4 q5 q6 x. rewrite CH, U, stretched_up.
  rewrite !Rminus_0_r. reflexivity.
Qed.

Lemma vadd_inj a u v : vadd a u = vadd a v -> u = v.
Proof.
  destruct a as [a b c], u as [u1 u2 u3], v as [v1 v2 v3]. cbv [vadd vx vy vz]. intros E. injection E as E1 E2 E3. f_equal; lra.
Qed.
Lemma unit_ey : unit3 ey.
Proof. cbv [unit3 norm2 dot ey vx vy vz]. ring. Qed.
Lemma unit_ez : unit3 ez.
Proof. cbv [unit3 norm2 dot ez vx vy vz]. ring. Qed.
Lemma stretched_inj t1 t2 t3 t4 t5 t6 t6' z0 p1 p2 p3 l4 l5 l6 x x' :
  stretched ez t1 t2 t3 t4 t5 t6 z0 p1 p2 p3 l4 l5 l6 x = stretched ez t1 t2 t3 t4 t5 t6' z0 p1 p2 p3 l4 l5 l6 x' ->
  rotate ez t6 (vadd (vscale l6 ez) (rotate ey (PI / 2) x)) = rotate ez t6' (vadd (vscale l6 ez) (rotate ey (PI / 2) x')).
Proof.
  unfold stretched. intros E. apply vadd_inj in E. apply (rotate_inj _ _ _ _ unit_ez) in E. apply vadd_inj in E.
  apply (rotate_inj _ _ _ _ unit_ey) in E. apply vadd_inj in E. apply (rotate_inj _ _ _ _ unit_ey) in E. apply vadd_inj in E.
  apply (rotate_inj _ _ _ _ unit_ez) in E. apply vadd_inj in E. apply (rotate_inj _ _ _ _ unit_ey) in E. apply vadd_inj in E.
  exact E.
Qed.

(** No OPW parameters describe a robot outstretched along z with the required flange. *)
Lemma opw_z_differs r p : opw_exact r ez -> ~ opw_solves p (flange_point r).
Proof.
  intros X S.
  destruct (oe_geom r ez X) as (h1 & h2 & h3 & h4 & h5 & h6 & z0 & p1 & p2 & p3 & l4 & l5 & l6 & H & P & A1 & A2 & A3 & A4 & A5 & A6 & N1 & N2).
  destruct (along_sign h1 ez (v_close_neg ez ltac:(auto)) A1) as (s1 & _ & S1 & R1).
  destruct (along_sign h2 ey (v_close_neg ey ltac:(auto)) A2) as (s2 & _ & S2 & R2).
  destruct (along_sign h3 ey (v_close_neg ey ltac:(auto)) A3) as (s3 & _ & S3 & R3).
  destruct (along_sign h4 ez (v_close_neg ez ltac:(auto)) A4) as (s4 & _ & S4 & R4).
  destruct (along_sign h5 ey (v_close_neg ey ltac:(auto)) A5) as (s5 & _ & S5 & R5).
  destruct (along_sign h6 ez (v_close_neg ez ltac:(auto)) A6) as (s6 & V6 & S6 & R6).
  pose proof (opw_chain r ez X h1 h2 h3 h4 h5 h6 z0 p1 p2 p3 l4 l5 l6 H P s1 s2 s3 s4 s5 s6 R1 R2 R3 R4 R5 R6) as CH.
  assert (C : forall q6, opw_arm p 0 0 0 0 0 q6 ez = opw_arm p 0 0 0 0 0 0 ez).
  { intros q6. unfold opw_arm. do 8 f_equal.
    assert (Q : vadd (V3 0 0 (o_c4 p)) ez = V3 0 0 (o_c4 p + 1)) by (cbv [vadd ez vx vy vz]; f_equal; ring).
    rewrite Q, !rotate_ez_ez. reflexivity. }
  pose proof (C PI) as K. rewrite <- !(S 0 0 0 0 0), !CH in K. apply stretched_inj in K.
  rewrite !rotate_ey_quarter, !rotate_ez, Rmult_0_r, cos_0, sin_0 in K. apply (f_equal vx) in K.
  cbv [vadd vscale ez vx vy vz] in K. destruct V6 as [-> | ->].
  - rewrite Rmult_1_l, cos_PI, sin_PI in K. lra.
  - replace (-1 * PI) with (- PI) in K by ring. rewrite cos_neg, sin_neg, cos_PI, sin_PI in K. lra.
Qed.

Lemma int8_int z : to_int8 (IZR z) = z.
Proof.
  assert (I : forall k, Int_part (IZR k) = k).
  { intros k. unfold Int_part. rewrite <- (tech_up (IZR k) (k + 1)); [lia|rewrite plus_IZR; lra|rewrite plus_IZR; lra]. }
  unfold to_int8. destruct (Rleb 0 (IZR z)); [apply I|]. rewrite <- opp_IZR, I. lia.
Qed.
