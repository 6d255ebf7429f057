(** Property C111: robot6_sphericalwrist_invkin finds every well-conditioned solution in binary64. *)
From Coq Require Import Reals ZArith List Bool Lra Lia Psatz Permutation.
From Flocq Require Import Core.Core IEEE754.BinarySingleNaN.
From Verif Require Import LinAlg RealAux Py FactsReal FactsLinAlg ModelRot SpecRot FactsRot FactsNorm SpecSub FactsSub ModelFloat ModelFloat2 ModelFloat3 ModelFloat6 ModelFloat9 ModelFloat10 ModelFloat11 SpecRound FactsRound FactsB64 FactsExact FactsTrack SpecArc SpecSub4 SpecReach SpecRpy FactsRpy FactsIk64 FactsPath64 FactsJoint64 FactsArm64 FactsWrist64 ModelTransform ModelRobot ModelKin SpecKin SpecInvkin FactsKin SpecArc2 SpecRobot64 FactsRobot64 ModelInvkin FactsFind64 FactsSeek64 FactsFound64 SpecFind.
From Verif Require FactsRobot6 FactsIkGeo FactsIkOk PropNorm PropSub2.
From Verif Require Import PropFloat PropPi PropAngle PropRpy PropSub4 PropR2rot PropMove PropRobot64.
Import ListNotations.
Open Scope R_scope.

Lemma rate_step k p p' q t : unit3 k -> Rabs (reach_rate k p q t - reach_rate k p' q t) <= 2 * (norm q * norm (vsub p p')).
Proof.
  intros U. unfold reach_rate. replace (2 * LinAlg.dot q (cross k (rotate k t p)) - 2 * LinAlg.dot q (cross k (rotate k t p'))) with (2 * (LinAlg.dot q (cross k (rotate k t p)) - LinAlg.dot q (cross k (rotate k t p')))) by ring.
  rewrite Rabs_mult, (Rabs_right 2) by lra. apply Rmult_le_compat_l; [lra|]. eapply Rle_trans; [apply near_dot|]. apply Rmult_le_compat_l; [apply norm_nonneg|].
  replace (vsub (cross k (rotate k t p)) (cross k (rotate k t p'))) with (cross k (vsub (rotate k t p) (rotate k t p'))) by (generalize (rotate k t p) (rotate k t p'); intros; la_ring).
  eapply Rle_trans; [apply FactsAngle.cross_le|]. rewrite (norm_unit _ U), Rmult_1_l, PropMove.rotate_sub by exact U. lra.
Qed.
(** the arm and the wrist of joint values that reach a pose, apart *)
Lemma split_pose (R0 R1 R2 R3 R4 R5 Q : mat3) p0 p1 p2 p34 p65 tT :
  (forall w, vadd p0 (mvec R0 (vadd p1 (mvec R1 (vadd p2 (mvec R2 (vadd p34 (mvec R3 (mvec R4 (mvec R5 (vadd p65 w)))))))))) = vadd (mvec Q w) tT) ->
  (vadd p0 (mvec R0 (vadd p1 (mvec R1 (vadd p2 (mvec R2 p34))))) = vsub tT (mvec Q p65)) /\ forall v, mvec Q v = mvec R0 (mvec R1 (mvec R2 (mvec R3 (mvec R4 (mvec R5 v))))).
Proof.
  intros H. assert (Z : forall X, mvec X vzero = vzero) by (intros; la_ring). assert (AS : forall v, vadd p65 (vsub v p65) = v) by (intros; la_ring).
  assert (K : vadd p0 (mvec R0 (vadd p1 (mvec R1 (vadd p2 (mvec R2 p34))))) = vsub tT (mvec Q p65)).
  { specialize (H (vsub vzero p65)). rewrite AS, !Z, vadd_0_r, mvec_vsub, Z in H. rewrite H. generalize (mvec Q p65). intros. la_ring. }
  split; [exact K|]. intros v. specialize (H (vsub v p65)). rewrite AS, mvec_vsub in H. revert H K. rewrite !mvec_vadd.
  generalize (mvec R0 (mvec R1 (mvec R2 (mvec R3 (mvec R4 (mvec R5 v)))))) (mvec R0 (mvec R1 (mvec R2 p34))) (mvec R0 (mvec R1 p2)) (mvec R0 p1) (mvec Q v) (mvec Q p65).
  intros x y a b c d H K. replace c with (vadd (vsub (vadd (vsub c d) tT) (vsub tT d)) vzero) by la_ring. rewrite <- H, <- K. la_ring.
Qed.

(** A solution away from singularities and limits, with or without last_joints: some vector that comes back is near it, joint by joint. *)
Lemma finds_near : forall L (f : b64 -> b64) bdot argsort rf r posef pose last sols a1 a2 a3 a4 a5 a6 M rho w h0 h1 h2 h3 h4 h5 p0 p1 p2 p3 p4 p5 p6 R06 v,
  In bdot b_dots -> libm_ok L (bpow radix2 (-52)) -> libm_total L -> libm_arc_ok L (bpow radix2 (-50)) -> libm_angle_ok L (bpow radix2 (-50)) -> libm_asin_ok f (bpow radix2 (-50)) ->
  opw r h0 h1 h2 h3 h4 h5 p0 p1 p2 p3 p4 p5 p6 -> wf_aux r -> stored_robot L bdot M rf r -> stored_pose L bdot M posef pose ->
  1 <= M <= bpow radix2 150 -> 1002 / 1000 * extent r pose <= M -> 1 <= rho -> 1 <= w -> rho * w <= 31 ->
  g_robot6_invkin (b64_arith L bdot) f b_rem argsort rf posef last = Ok sols ->
  (forall u, robot_point r [a1; a2; a3; a4; a5; a6] u = act pose u) -> Forall (fun a => Rabs a <= 4) [a1; a2; a3; a4; a5; a6] ->
  (forall ls us, grlower rf = Some ls -> grupper rf = Some us -> clear_of ls us (bpow radix2 (-13) * (rho * rho) * (w * w)) [a1; a2; a3; a4; a5; a6]) ->
  (last <> None -> forall l, Permutation (argsort l) (seq 0 (length l))) -> match last with None => True | Some lj => near_last lj [a1; a2; a3; a4; a5; a6] end ->
  wrist_of r pose (vadd p6 p5) R06 v -> M <= rho * Rabs (turn_rate ey v (vneg h0) a1) -> M * M <= rho * Rabs (reach_rate h2 (vadd p3 p4) p2 a3) ->
  M <= rho * norm (perp ey (vadd p2 (rotate h2 a3 (vadd p3 p4)))) -> 1 <= w * Rabs (sin a5) ->
  let tol := [bpow radix2 (-38) * rho; bpow radix2 (-20) * (rho * rho); bpow radix2 (-21) * rho; bpow radix2 (-15) * (rho * rho) * (w * w); bpow radix2 (-16) * (rho * rho) * w; bpow radix2 (-13) * (rho * rho) * (w * w)] in
  exists x, In x sols /\ same_angles tol x [a1; a2; a3; a4; a5; a6] /\ (last <> None -> close_joints tol x [a1; a2; a3; a4; a5; a6]).
Proof.
  intros L f bdot argsort rf r posef pose last sols a1 a2 a3 a4 a5 a6 M rho w h0 h1 h2 h3 h4 h5 p0 p1 p2 p3 p4 p5 p6 R06 v HD HL HT HA HG HF O W SR SP RM0 EX RR WW RW E GO BA LIM SO NLS WO K1 K3 K2 KW tol.
  assert (RM : bpow radix2 (-150) <= M <= bpow radix2 150) by (split; [change 1 with (bpow radix2 0) in RM0; eapply Rle_trans; [|apply RM0]; apply bpow_le; lia|apply RM0]).
  assert (MP : 0 < M) by lra. pose proof uu_pos as UP. pose proof uu_val' as UV.
  pose proof (sr_H _ _ _ _ _ SR) as SH. pose proof (sr_P _ _ _ _ _ SR) as SPP.
  pose proof (opw_H _ _ _ _ _ _ _ _ _ _ _ _ _ _ O) as OH. pose proof (opw_P _ _ _ _ _ _ _ _ _ _ _ _ _ _ O) as OP.
  rewrite OH in SH. rewrite OP in SPP.
  destruct (grH rf) as [|H0 [|H1 [|H2 [|H3 [|H4 [|H5 [|]]]]]]] eqn:EH;
    try (exfalso; repeat (apply two_cons in SH; destruct SH as [_ SH]); inversion SH; fail).
  destruct (grP rf) as [|P0 [|P1 [|P2 [|P3 [|P4 [|P5 [|P6 [|]]]]]]]] eqn:EP;
    try (exfalso; repeat (apply two_cons in SPP; destruct SPP as [_ SPP]); inversion SPP; fail).
  apply two_cons in SH. destruct SH as [S0 SH]. apply two_cons in SH. destruct SH as [S1 SH]. apply two_cons in SH. destruct SH as [S2 SH].
  apply two_cons in SH. destruct SH as [S3 SH]. apply two_cons in SH. destruct SH as [S4 SH]. apply two_cons in SH. destruct SH as [S5 _].
  apply two_cons in SPP. destruct SPP as [T0 SPP]. apply two_cons in SPP. destruct SPP as [T1 SPP]. apply two_cons in SPP. destruct SPP as [T2 SPP].
  apply two_cons in SPP. destruct SPP as [T3 SPP]. apply two_cons in SPP. destruct SPP as [T4 SPP]. apply two_cons in SPP. destruct SPP as [T5 SPP]. apply two_cons in SPP. destruct SPP as [T6 _].
  unfold g_robot6_invkin in E. cbv zeta in E. rewrite EH, EP in E. apply bind_inv in E. destruct E as (P' & EC & E).
  destruct (correct_form L bdot _ _ _ _ _ _ _ _ _ _ _ _ _ _ EC) as (P3' & P4' & P5' & P6' & -> & C3 & C6).
  unfold extent in EX. rewrite OP in EX. cbn [fold_right] in EX.
  pose proof (norm_nonneg p0) as N0. pose proof (norm_nonneg p1) as N1. pose proof (norm_nonneg p2) as N2. pose proof (norm_nonneg p3) as N3. pose proof (norm_nonneg p4) as N4. pose proof (norm_nonneg p5) as N5'. pose proof (norm_nonneg p6) as N6.
  pose proof (norm_nonneg (tp pose)) as NT. pose proof (shift_nonneg (tool_transform r)) as NS1. pose proof (shift_nonneg (rflange r)) as NS2. pose proof (shift_nonneg (rbase r)) as NS3.
  assert (RM' : rg 380 M) by (apply (rg_weak 150); [lia | exact RM]).
  destruct (link_ok L bdot HD HL M P3 P4 p3 p4 P3' RM' T3 T4 ltac:(lra) C3) as (F3 & E3 & B3).
  destruct (link_ok L bdot HD HL M P6 P5 p6 p5 P6' RM' T6 T5 ltac:(lra) C6) as (F6 & E6 & B6).
  destruct (unapply_ok L bdot HD HL M rf r posef pose RM' SR SP ltac:(lra)) as (MQ & (FT & ET & BT) & BT').
  set (Q := tR (unapply_aux r pose)) in *. set (tT := tp (unapply_aux r pose)) in *.
  destruct (FactsIkOk.wrist_unique r pose _ R06 v W WO) as [EV _]. fold Q tT in EV.
  assert (VF : forall X q, stored3 M X q -> SpecRound.vfin (A := b64_arith L bdot) bfin X /\ SpecRound.vval (A := b64_arith L bdot) bval X = q).
  { intros X q (A0 & A1 & A2 & Eq & _). split; [repeat split; assumption | symmetry; exact Eq]. }
  destruct (VF _ _ T0) as [F0 V0]. destruct (VF _ _ T1) as [F1 V1]. destruct (VF _ _ T2) as [F2 V2]. clear VF.
  set (pf := g_unapply_aux (b64_arith L bdot) rf posef) in *.
  set (q3 := SpecRound.vval (A := b64_arith L bdot) bval P3') in *. set (q6 := SpecRound.vval (A := b64_arith L bdot) bval P6') in *.
  set (qT := SpecRound.vval (A := b64_arith L bdot) bval (gp pf)) in *.
  assert (UM : 0 < uu * M) by (apply Rmult_lt_0_compat; lra).
  assert (UM' : uu * M <= 12 / 100000000000000000 * M) by (apply Rmult_le_compat_r; lra).
  pose proof (norm_triangle p3 p4) as N34. pose proof (norm_triangle p6 p5) as N65.
  assert (NB : forall a b e, norm (vsub a b) <= e -> norm a <= norm b + e).
  { intros a b e He. replace a with (vadd b (vsub a b)) by la_ring. eapply Rle_trans; [apply norm_triangle|]. lra. }
  pose proof (NB _ _ _ E3) as G3. pose proof (NB _ _ _ E6) as G6. pose proof (NB _ _ _ ET) as GT'.
  assert (UE : unit3 ey) by (unfold unit3, norm2, dot, ey; cbn; ring).
  assert (U0 : unit3 h0) by apply S0. assert (U1 : unit3 h1) by apply S1. assert (U2 : unit3 h2) by apply S2.
  assert (U3 : unit3 h3) by apply S3. assert (U4 : unit3 h4) by apply S4. assert (U5 : unit3 h5) by apply S5.
  assert (SQ : is_SO3 Q) by apply MQ.
  (* the exact joint values against the exact arm and wrist *)
  assert (GOW : forall u, vadd p0 (mvec (rot h0 a1) (vadd p1 (mvec (rot h1 a2) (vadd p2 (mvec (rot h2 a3) (vadd (vadd p3 p4) (mvec (rot h3 a4) (mvec (rot h4 a5) (mvec (rot h5 a6) (vadd (vadd p6 p5) u)))))))))) = vadd (mvec Q u) tT).
  { intros u. destruct (FactsRobot6.point6_onto r u W) as [x <-]. specialize (GO x). rewrite (FactsRobot6.opw_point _ _ _ _ _ _ _ _ _ _ _ _ _ _ _ _ _ _ _ _ _ O) in GO. cbv zeta in GO. fold (point6 r x) in GO.
    rewrite (FactsRobot6.pose_split r pose x W) in GO. exact (FactsRobot6.act_opt_inj _ _ _ (wf_base r W) GO). }
  destruct (split_pose _ _ _ _ _ _ _ _ _ _ _ _ _ GOW) as [ARM WR]. clear GOW.
  set (cvf := FactsArm64.cv L bdot P6' (gp pf) Q).
  assert (CV : norm (vsub cvf v) <= 3802 * (uu * M)).
  { unfold cvf, FactsArm64.cv. fold qT q6. rewrite EV. replace (vsub (vsub qT (mvec Q q6)) (vsub tT (mvec Q (vadd p6 p5)))) with (vsub (vsub qT tT) (mvec Q (vsub q6 (vadd p6 p5)))) by (rewrite mvec_vsub; generalize (mvec Q q6) (mvec Q (vadd p6 p5)); intros; la_ring).
    eapply Rle_trans; [apply norm_vsub_le|]. rewrite norm_SO3 by exact SQ. lra. }
  assert (rho <= 31) by (assert (rho * 1 <= rho * w) by (apply Rmult_le_compat_l; lra); lra).
  assert (RD : forall x y d, Rabs (x - y) <= d * (uu * M) -> 0 <= d <= 4000 -> M <= rho * Rabs x -> M <= 1001 / 1000 * rho * Rabs y).
  { intros x y d XY D K. pose proof (Rabs_triang_inv x (x - y)) as TI. replace (x - (x - y)) with y in TI by ring. assert (d * (uu * M) <= 4000 * (uu * M)) by (apply Rmult_le_compat_r; lra).
    assert (rho * Rabs x <= rho * (Rabs y + 4000 * (uu * M))) by (apply Rmult_le_compat_l; lra). assert (rho * (4000 * (uu * M)) <= 31 * (4000 * (uu * M))) by (apply Rmult_le_compat_r; lra). lra. }
  assert (K1' : M <= 1001 / 1000 * rho * Rabs (turn_rate ey cvf (vneg h0) a1)).
  { apply (RD (turn_rate ey v (vneg h0) a1) _ 3802); [|lra|exact K1]. eapply Rle_trans; [apply rate_near; apply FactsIkGeo.unit_neg; exact U0|]. rewrite (norm_unit _ UE), Rmult_1_l, norm_vsub_sym. exact CV. }
  assert (C2 : norm (vsub (FactsArm64.c2 L bdot P2 P3' h2 a3) (vadd p2 (rotate h2 a3 (vadd p3 p4)))) <= 2 * (uu * M)).
  { unfold FactsArm64.c2. rewrite V2. fold q3. rewrite add_cancel, PropMove.rotate_sub by exact U2. exact E3. }
  assert (K2' : M <= 1001 / 1000 * rho * norm (perp ey (FactsArm64.c2 L bdot P2 P3' h2 a3))).
  { rewrite <- (Rabs_right (norm (perp ey (FactsArm64.c2 L bdot P2 P3' h2 a3)))) by apply Rle_ge, norm_nonneg. apply (RD (norm (perp ey (vadd p2 (rotate h2 a3 (vadd p3 p4))))) _ 2); [|lra|rewrite Rabs_right by apply Rle_ge, norm_nonneg; exact K2].
    pose proof (perp_near ey (vadd p2 (rotate h2 a3 (vadd p3 p4))) (FactsArm64.c2 L bdot P2 P3' h2 a3) UE) as PN. rewrite norm_vsub_sym in PN. lra. }
  assert (K3' : M * M <= 1001 / 1000 * rho * Rabs (reach_rate h2 q3 p2 a3)).
  { pose proof (rate_step h2 (vadd p3 p4) q3 p2 a3 U2) as X. rewrite (norm_vsub_sym (vadd p3 p4)) in X. assert (Y : norm p2 * norm (vsub q3 (vadd p3 p4)) <= M * (2 * (uu * M))) by (apply Rmult_le_compat; try apply norm_nonneg; [lra|exact E3]).
    set (x := reach_rate h2 (vadd p3 p4) p2 a3) in *. set (y := reach_rate h2 q3 p2 a3) in *. pose proof (Rabs_triang_inv x (x - y)) as TI. replace (x - (x - y)) with y in TI by ring.
    assert (rho * Rabs x <= rho * (Rabs y + 4 * (M * (uu * M)))) by (apply Rmult_le_compat_l; lra). assert (0 <= M * (uu * M)) by (apply Rmult_le_pos; lra). assert (rho * (4 * (M * (uu * M))) <= 31 * (4 * (M * (uu * M)))) by (apply Rmult_le_compat_r; lra).
    assert (M * (uu * M) <= M * (12 / 100000000000000000 * M)) by (apply Rmult_le_compat_l; lra). lra. }
  assert (EXF : norm (vsub (rotate h1 a2 (FactsArm64.c2 L bdot P2 P3' h2 a3)) (FactsArm64.c26 L bdot P0 P1 P6' (gp pf) h0 Q a1)) <= 4000 * (uu * M)).
  { assert (X : rotate h1 a2 (vadd p2 (rotate h2 a3 (vadd p3 p4))) = vsub (rotate h0 (- a1) v) (vadd p0 p1)).
    { rewrite EV, <- ARM, !rot_rotate, (turn_add h0 (- a1) p0), (turn_axis h0 (- a1) p0) by (try assumption; apply (opw_p0 _ _ _ _ _ _ _ _ _ _ _ _ _ _ O)). rewrite PropSub2.turn_back by exact U0. generalize (rotate h1 a2 (vadd p2 (rotate h2 a3 (vadd p3 p4)))). intros. la_ring. }
    rewrite (chain3 _ (rotate h1 a2 (vadd p2 (rotate h2 a3 (vadd p3 p4)))) (vsub (rotate h0 (- a1) v) (vadd p0 p1))). rewrite X at 2. rewrite vsub_self.
    eapply Rle_trans; [apply norm_triangle|]. eapply Rle_trans; [apply Rplus_le_compat_l; apply norm_triangle|]. rewrite norm_vzero, PropMove.rotate_sub by exact U1.
    unfold FactsArm64.c26. rewrite V0, V1. fold cvf. rewrite sub_cancel, PropMove.rotate_sub, (norm_vsub_sym v) by exact U0. lra. }
  assert (EXQ : forall u, mvec Q u = rotate h0 a1 (rotate h1 a2 (rotate h2 a3 (rotate h3 a4 (rotate h4 a5 (rotate h5 a6 u)))))) by (intros u; rewrite WR, !rot_rotate by assumption; reflexivity).
  assert (HA' : libm_arc_ok L (8 * uu)) by (rewrite <- b50; exact HA).
  assert (K := core_find L bdot f HD HL HT HA' HG HF H0 H1 H2 H3 H4 H5 P0 P1 P2 P3' P4' P5' P6' pf h0 h1 h2 h3 h4 h5 Q M S0 S1 S2 S3 S4 S5 MQ F0 F1 F2 F3 F6 FT RM (proj1 RM0)).
  rewrite V0, V1, V2 in K. fold q3 q6 qT cvf in K.
  set (rh := 1001 / 1000 * rho) in *. assert (RH : rho <= rh) by (unfold rh; lra).
  assert (RHW : rh * w <= 32) by (unfold rh; lra).
  assert (R2 : 0 <= rho * rho /\ rh * rh = 1002001 / 1000000 * (rho * rho)) by (split; [apply Rle_0_sqr|unfold rh; field]). destruct R2 as [R2 RH2].
  assert (W2 : 0 <= w * w) by apply Rle_0_sqr. assert (R2W : 0 <= rho * rho * w) by (apply Rmult_le_pos; lra). assert (R2W2 : 0 <= rho * rho * (w * w)) by (apply Rmult_le_pos; lra).
  assert (BP : bpow radix2 (-38) = 32768 * uu /\ bpow radix2 (-20) = 8589934592 * uu /\ bpow radix2 (-21) = 4294967296 * uu /\ bpow radix2 (-15) = 274877906944 * uu /\ bpow radix2 (-16) = 137438953472 * uu /\ bpow radix2 (-13) = 1099511627776 * uu).
  { rewrite UV. cbn. repeat split; lra. }
  destruct BP as (B38 & B20 & B21 & B15 & B16 & B13).
  assert (UR2W2 : 0 <= uu * (rho * rho * (w * w))) by (apply Rmult_le_pos; lra).
  assert (RO : forall i a, nth_error [a1; a2; a3; a4; a5; a6] i = Some a -> room L bdot (zr L bdot rf last) i (672000000000 * (uu * (rh * rh)) * (w * w)) a).
  { intros i a NA. split; [unfold zr; cbn [gnlast]; destruct last as [lj|]; [exact (NLS i a NA)|exact I]|]. unfold zr. cbn [gnlimits]. destruct (grlower rf) as [ls|]; [|exact I]. destruct (grupper rf) as [us|]; [|exact I].
    destruct (LIM ls us eq_refl eq_refl i a NA) as (l & u & NL & NU & FL & FU & BL). exists l, u. split; [exact NL|]. split; [exact NU|]. split; [exact FL|]. split; [exact FU|].
    rewrite B13 in BL. rewrite RH2. replace (672000000000 * (uu * (1002001 / 1000000 * (rho * rho))) * (w * w)) with (673344672000 * (uu * (rho * rho * (w * w)))) by field. lra. }
  specialize (K ltac:(lra) (opw_h1 _ _ _ _ _ _ _ _ _ _ _ _ _ _ O) (opw_h2 _ _ _ _ _ _ _ _ _ _ _ _ _ _ O) (opw_p0y _ _ _ _ _ _ _ _ _ _ _ _ _ _ O)
    (opw_34 _ _ _ _ _ _ _ _ _ _ _ _ _ _ O) (opw_35 _ _ _ _ _ _ _ _ _ _ _ _ _ _ O) a1 a2 a3 a4 a5 a6 rh w ltac:(lra) WW RHW EXF EXQ K1' K3' K2' KW rf EH argsort last sols E SO BA RO).
  destruct K as (x1 & x2 & x3 & x4 & x5 & x6 & I & X1 & X2 & X3 & X4 & X5 & X6).
  exists [x1; x2; x3; x4; x5; x6]. split; [exact I|].
  assert (UR : 0 <= uu * rho) by (apply Rmult_le_pos; lra). assert (URR : 0 <= uu * (rho * rho)) by (apply Rmult_le_pos; lra). assert (URW : 0 <= uu * (rho * rho * w)) by (apply Rmult_le_pos; lra).
  assert (TH : forall i y a d, nth_error [x1; x2; x3; x4; x5; x6] i = Some y -> nth_error [a1; a2; a3; a4; a5; a6] i = Some a -> nth_error tol i = Some d -> there L bdot (zr L bdot rf last) d (bval y) a).
  2:{ split; [split; [reflexivity|]|intros LN; split; [reflexivity|]]; intros i y a d NX NA ND; destruct (TH i y a d NX NA ND) as [T1' T2']; [exact T1'|exact (T2' LN)]. }
  unfold tol. rewrite B38, B20, B21, B15, B16, B13.
  intros i y a d NX NA ND. destruct i as [|[|[|[|[|[|i]]]]]]; cbn [nth_error] in NX, NA, ND; [injection NX as <-; injection NA as <-; injection ND as <- ..|destruct i; discriminate NX].
  - eapply there_weak; [|exact X1]. unfold rh. lra.
  - eapply there_weak; [|exact X2]. rewrite RH2. lra.
  - eapply there_weak; [|exact X3]. unfold rh. lra.
  - eapply there_weak; [|exact X4]. rewrite RH2. lra.
  - eapply there_weak; [|exact X5]. rewrite RH2. lra.
  - eapply there_weak; [|exact X6]. rewrite RH2. lra.
Qed.

(** A solution away from singularities and limits: some vector that comes back is near it, joint by joint. *)
Theorem C111_finds : forall L (f : b64 -> b64) bdot argsort rf r posef pose sols a1 a2 a3 a4 a5 a6 M rho w h0 h1 h2 h3 h4 h5 p0 p1 p2 p3 p4 p5 p6 R06 v,
  In bdot b_dots -> libm_ok L (bpow radix2 (-52)) -> libm_total L -> libm_arc_ok L (bpow radix2 (-50)) -> libm_angle_ok L (bpow radix2 (-50)) -> libm_asin_ok f (bpow radix2 (-50)) ->
  opw r h0 h1 h2 h3 h4 h5 p0 p1 p2 p3 p4 p5 p6 -> wf_aux r -> stored_robot L bdot M rf r -> stored_pose L bdot M posef pose ->
  1 <= M <= bpow radix2 150 -> 1002 / 1000 * extent r pose <= M -> 1 <= rho -> 1 <= w -> rho * w <= 31 ->
  g_robot6_invkin (b64_arith L bdot) f b_rem argsort rf posef None = Ok sols ->
  (forall u, robot_point r [a1; a2; a3; a4; a5; a6] u = act pose u) -> Forall (fun a => Rabs a <= 4) [a1; a2; a3; a4; a5; a6] ->
  (forall ls us, grlower rf = Some ls -> grupper rf = Some us -> clear_of ls us (bpow radix2 (-13) * (rho * rho) * (w * w)) [a1; a2; a3; a4; a5; a6]) ->
  wrist_of r pose (vadd p6 p5) R06 v -> M <= rho * Rabs (turn_rate ey v (vneg h0) a1) -> M * M <= rho * Rabs (reach_rate h2 (vadd p3 p4) p2 a3) ->
  M <= rho * norm (perp ey (vadd p2 (rotate h2 a3 (vadd p3 p4)))) -> 1 <= w * Rabs (sin a5) ->
  exists x, In x sols /\ same_angles [bpow radix2 (-38) * rho; bpow radix2 (-20) * (rho * rho); bpow radix2 (-21) * rho; bpow radix2 (-15) * (rho * rho) * (w * w); bpow radix2 (-16) * (rho * rho) * w; bpow radix2 (-13) * (rho * rho) * (w * w)] x [a1; a2; a3; a4; a5; a6].
Proof.
  intros. destruct (finds_near L f bdot argsort rf r posef pose None sols a1 a2 a3 a4 a5 a6 M rho w h0 h1 h2 h3 h4 h5 p0 p1 p2 p3 p4 p5 p6 R06 v) as (x & IX & SX & _); try assumption; [congruence|exact I|].
  exists x. split; assumption.
Qed.
Print Assumptions C111_finds.

(** The robot of C108_ex: its one solution bends the fifth joint by a quarter turn, and the run finds it. *)
Example C111_ex : forall bdot, In bdot b_dots -> exists sols x, pin_run bdot = Ok sols /\ (forall u, robot_point pin_r [0; 0; 0; 0; PI / 2; 0] u = act pin_goal u) /\ In x sols /\
  same_angles [bpow radix2 (-38) * 24; bpow radix2 (-20) * (24 * 24); bpow radix2 (-21) * 24; bpow radix2 (-15) * (24 * 24) * (1 * 1); bpow radix2 (-16) * (24 * 24) * 1; bpow radix2 (-13) * (24 * 24) * (1 * 1)] x [0; 0; 0; 0; PI / 2; 0].
Proof.
  intros bdot HD. pose proof (pin_runs bdot HD) as RT. destruct (pin_run bdot) as [sols|] eqn:E; [|discriminate RT]. clear RT.
  destruct pin_opw as [O W]. assert (R0 : forall k v, rotate k 0 v = v) by (intros; unfold rotate; rewrite sin_0, cos_0; la_ring).
  assert (LE : forall v n, 0 <= n -> n * n <= LinAlg.dot v v -> n <= norm v) by (intros v n P Q; unfold norm, norm2; rewrite <- (sqrt_square n P); apply sqrt_le_1_alt; exact Q).
  assert (GO : forall u, robot_point pin_r [0; 0; 0; 0; PI / 2; 0] u = act pin_goal u).
  { intros u. rewrite (FactsRobot6.opw_point _ _ _ _ _ _ _ _ _ _ _ _ _ _ _ _ _ _ _ _ _ O). cbv zeta. rewrite !rot_rotate by (unfold unit3, norm2, LinAlg.dot, ex, ey, ez; cbn; ring). rewrite !R0. unfold rotate. rewrite cos_PI2, sin_PI2.
    destruct u as [x y z]. unfold act, act_tool, pin_goal, pin_R06, ez, ex, ey. cbn. la_ring. }
  pose proof pi_hi as P4. pose proof PI2_3_2 as P3.
  exists sols. destruct (C111_finds pin_libm pin_asin bdot (fun _ => []) (pin_rf bdot) pin_r (pin_pose bdot) pin_goal sols 0 0 0 0 (PI / 2) 0 24 24 1 ez ey ey ex ey ex ez (V3 1 0 1) (V3 0 0 3) (V3 2 0 0) (V3 2 0 0) ex ez pin_R06 (V3 5 0 5)
      HD pin_ok pin_total pin_arc pin_angle pin_asin_ok O W (pin_robot 24 bdot ltac:(lra)) (pin_posed 24 bdot ltac:(lra))) as (x & IX & SX); try lra; try assumption.
  - split; [lra|]. apply Rle_trans with (bpow radix2 5); [cbn; lra|apply bpow_le; lia].
  - exact pin_extent.
  - repeat (constructor; [apply Rabs_le; lra|]). constructor.
  - intros ls us [= <-] [= <-] i a NA. assert (B13 : bpow radix2 (-13) * (24 * 24) * (1 * 1) <= 1 / 10) by (cbn; lra).
    assert (G : forall l u, nth_error [-1;-1;-1;-1;-2;-1]%Z i = Some l -> nth_error [1;1;1;1;2;1]%Z i = Some u -> (-8 <= l <= 8)%Z -> (-8 <= u <= 8)%Z -> IZR l + 1 / 10 <= a <= IZR u - 1 / 10 ->
      exists l u : b64, nth_error (map b_ofZ [-1;-1;-1;-1;-2;-1]%Z) i = Some l /\ nth_error (map b_ofZ [1;1;1;1;2;1]%Z) i = Some u /\ bfin l /\ bfin u /\ bval l + bpow radix2 (-13) * (24 * 24) * (1 * 1) <= a <= bval u - bpow radix2 (-13) * (24 * 24) * (1 * 1)).
    { intros l u NL NU RL RU BL. destruct (pin_int l RL) as [FL VL]. destruct (pin_int u RU) as [FU VU]. exists (b_ofZ l), (b_ofZ u). rewrite !nth_error_map, NL, NU. split; [reflexivity|]. split; [reflexivity|]. split; [exact FL|]. split; [exact FU|]. rewrite VL, VU. lra. }
    do 6 (destruct i as [|i]; [injection NA as <-; refine (G _ _ eq_refl eq_refl _ _ _); [lia|lia|lra]|]). destruct i; discriminate NA.
  - intros [x y z]. unfold act, point6, act_tool, pin_goal, pin_R06, ez, ex. cbn. la_ring.
  - unfold turn_rate. rewrite R0. assert (1 <= Rabs (LinAlg.dot ey (cross (vneg ez) (V3 5 0 5)))) by (unfold LinAlg.dot, cross, vneg, ey, ez; cbn; unfold Rabs; destruct Rcase_abs; lra). lra.
  - unfold reach_rate. rewrite R0. assert (24 <= Rabs (2 * LinAlg.dot (V3 0 0 3) (cross ey (vadd (V3 2 0 0) (V3 2 0 0))))) by (unfold LinAlg.dot, cross, vadd, ey; cbn; unfold Rabs; destruct Rcase_abs; lra). lra.
  - rewrite R0. assert (3 <= norm (perp ey (vadd (V3 0 0 3) (vadd (V3 2 0 0) (V3 2 0 0))))) by (apply LE; [lra|]; unfold perp, ey, vsub, vadd, vscale, LinAlg.dot; cbn [vx vy vz]; lra). lra.
  - rewrite sin_PI2, Rabs_R1. lra.
  - exists x. auto.
Qed.
