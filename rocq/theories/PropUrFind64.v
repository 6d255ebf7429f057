(** Property C112: ur_invkin finds every well-conditioned solution in binary64. *)
From Coq Require Import Reals ZArith List Bool Lra Lia Psatz Permutation.
From Flocq Require Import Core.Core IEEE754.BinarySingleNaN.
From Verif Require Import LinAlg RealAux Py FactsReal FactsLinAlg ModelRot SpecRot FactsRot FactsNorm SpecSub FactsSub ModelFloat ModelFloat2 ModelFloat3 ModelFloat6 ModelFloat9 ModelFloat10 ModelFloat11 ModelFloat12 SpecRound FactsRound FactsB64 FactsExact FactsTrack SpecArc SpecSub4 SpecReach SpecRpy FactsRpy FactsIk64 FactsPath64 FactsJoint64 FactsArm64 FactsWrist64 ModelTransform ModelRobot ModelKin SpecKin SpecInvkin FactsKin SpecArc2 SpecRobot64 FactsRobot64 FactsUr64 ModelInvkin FactsFind64 FactsSeek64 FactsUrFind64 SpecFind.
From Verif Require FactsRobot6 FactsUr FactsIkGeo FactsIkOk PropNorm PropSub2.
From Verif Require Import PropFloat PropPi PropAngle PropRpy PropSub4 PropR2rot PropMove PropRobot64 PropUr64.
Import ListNotations.
Open Scope R_scope.

(** the arm and the wrist of joint values that reach a pose, apart *)
Lemma split_ur (R0 R1 R2 R3 R4 R5 Q : mat3) p0 p1 p2 p3 p4 p65 tT :
  (forall w, vadd p0 (mvec R0 (vadd p1 (mvec R1 (vadd p2 (mvec R2 (vadd p3 (mvec R3 (vadd p4 (mvec R4 (mvec R5 (vadd p65 w))))))))))) = vadd (mvec Q w) tT) ->
  (vadd p0 (mvec R0 (vadd p1 (mvec R1 (vadd p2 (mvec R2 (vadd p3 (mvec R3 p4))))))) = vsub tT (mvec Q p65)) /\ forall v, mvec Q v = mvec R0 (mvec R1 (mvec R2 (mvec R3 (mvec R4 (mvec R5 v))))).
Proof.
  intros H. assert (Z : forall X, mvec X vzero = vzero) by (intros; la_ring). assert (AS : forall v, vadd p65 (vsub v p65) = v) by (intros; la_ring).
  assert (K : vadd p0 (mvec R0 (vadd p1 (mvec R1 (vadd p2 (mvec R2 (vadd p3 (mvec R3 p4))))))) = vsub tT (mvec Q p65)).
  { specialize (H (vsub vzero p65)). rewrite AS, !Z, vadd_0_r, mvec_vsub, Z in H. rewrite H. generalize (mvec Q p65). intros. la_ring. }
  split; [exact K|]. intros v. specialize (H (vsub v p65)). rewrite AS, mvec_vsub in H. revert H K. rewrite !mvec_vadd.
  generalize (mvec R0 (mvec R1 (mvec R2 (mvec R3 (mvec R4 (mvec R5 v)))))) (mvec R0 (mvec R1 (mvec R2 (mvec R3 p4)))) (mvec R0 (mvec R1 (mvec R2 p3))) (mvec R0 (mvec R1 p2)) (mvec R0 p1) (mvec Q v) (mvec Q p65).
  intros x y y' a b c d H K. replace c with (vadd (vsub (vadd (vsub c d) tT) (vsub tT d)) vzero) by la_ring. rewrite <- H, <- K. la_ring.
Qed.
(** the arm equation with the fourth link carried to the other side *)
Lemma arm_form h0 h a1 a2 a3 a4 p0 p1 p2 p3 p4 v : unit3 h0 -> unit3 h -> on_axis h0 p0 ->
  vadd p0 (rotate h0 a1 (vadd p1 (rotate h a2 (vadd p2 (rotate h a3 (vadd p3 (rotate h a4 p4))))))) = v ->
  rotate h a2 (vadd p2 (rotate h a3 p3)) = vsub (vsub (vsub (rotate h0 (- a1) v) p0) p1) (rotate h (a2 + a3 + a4) p4).
Proof.
  intros U0 U O <-. rewrite (turn_add h0 (- a1) p0), (turn_axis h0 (- a1) p0) by assumption. rewrite PropSub2.turn_back by exact U0.
  rewrite (turn_add h a3 p3), (rotate_twice h a3 a4 p4) by exact U. replace (vadd p2 (vadd (rotate h a3 p3) (rotate h (a3 + a4) p4))) with (vadd (vadd p2 (rotate h a3 p3)) (rotate h (a3 + a4) p4)) by (generalize (rotate h a3 p3) (rotate h (a3 + a4) p4); intros; la_ring).
  rewrite (turn_add h a2 (vadd p2 (rotate h a3 p3))), (rotate_twice h a2 (a3 + a4) p4) by exact U. replace (a2 + (a3 + a4)) with (a2 + a3 + a4) by ring.
  generalize (rotate h a2 (vadd p2 (rotate h a3 p3))) (rotate h (a2 + a3 + a4) p4). intros. la_ring.
Qed.

(** A solution away from singularities and limits, with or without last_joints: some vector that comes back is near it, joint by joint. *)
Lemma ur_finds_near : forall L (f : b64 -> b64) bdot argsort rf r posef pose last sols a1 a2 a3 a4 a5 a6 M rho w h p0 p1 p2 p3 p4 p5 p6 R06 v,
  In bdot b_dots -> libm_ok L (bpow radix2 (-52)) -> libm_total L -> libm_arc_ok L (bpow radix2 (-50)) -> libm_angle_ok L (bpow radix2 (-50)) -> libm_asin_ok f (bpow radix2 (-50)) ->
  ur r h p0 p1 p2 p3 p4 p5 p6 -> wf_aux r -> stored_robot L bdot M rf r -> stored_pose L bdot M posef pose ->
  1 <= M <= bpow radix2 150 -> 1002 / 1000 * extent r pose <= M -> 1 <= rho <= 31 -> 1 <= w -> rho * rho * (w * w * w) <= 16000 ->
  g_ur_invkin (b64_arith L bdot) f b_rem argsort rf posef last = Ok sols ->
  (forall u, robot_point r [a1; a2; a3; a4; a5; a6] u = act pose u) -> Forall (fun a => Rabs a <= 4) [a1; a2; a3; a4; a6] ->
  (forall ls us, grlower rf = Some ls -> grupper rf = Some us ->
     (forall i a, i <> 4%nat -> nth_error [a1; a2; a3; a4; a5; a6] i = Some a -> clear_at ls us i (bpow radix2 (-16) * (rho * rho * (w * w * w))) a) /\
     half_turn ls us 1 /\ half_turn ls us 2 /\ Rabs a4 <= 14 / 5) ->
  (last <> None -> forall l, Permutation (argsort l) (seq 0 (length l))) ->
  (forall lj i a, last = Some lj -> i <> 4%nat -> nth_error [a1; a2; a3; a4; a5; a6] i = Some a -> exists x : b64, nth_error lj i = Some x /\ bfin x /\ Rabs (bval x - a) <= 5 / 4) ->
  wrist_of r pose (vadd p6 p5) R06 v -> M <= rho * Rabs (turn_rate ey v (vneg ez) a1) -> M * M <= rho * Rabs (reach_rate h p3 p2 a3) ->
  M <= rho * norm (perp ey (vadd p2 (rotate h a3 p3))) -> 1 <= w * Rabs (sin a5) ->
  let tol := [bpow radix2 (-38) * rho; bpow radix2 (-16) * (rho * rho * (w * w * w)); bpow radix2 (-18) * (rho * (w * w * w)); bpow radix2 (-16) * (rho * rho * (w * w * w)); bpow radix2 (-22) * (w * w); bpow radix2 (-19) * (w * w * w)] in
  exists x, In x sols /\ same_angles tol x [a1; a2; a3; a4; a5; a6] /\ (last <> None -> forall i y a d, i <> 4%nat -> nth_error x i = Some y -> nth_error [a1; a2; a3; a4; a5; a6] i = Some a -> nth_error tol i = Some d -> Rabs (bval y - a) <= d).
Proof.
  intros L f bdot argsort rf r posef pose last sols a1 a2 a3 a4 a5 a6 M rho w h p0 p1 p2 p3 p4 p5 p6 R06 v HD HL HT HA HG HF O W SR SP RM0 EX RR WW RW E GO BA LIM SO NLS WO K1 K3 K2 KW tol.
  assert (RM : bpow radix2 (-150) <= M <= bpow radix2 150) by (split; [change 1 with (bpow radix2 0) in RM0; eapply Rle_trans; [|apply RM0]; apply bpow_le; lia|apply RM0]).
  assert (MP : 0 < M) by lra. pose proof uu_pos as UP. pose proof uu_val' as UV.
  pose proof (sr_H _ _ _ _ _ SR) as SH. pose proof (sr_P _ _ _ _ _ SR) as SPP.
  pose proof (ur_H _ _ _ _ _ _ _ _ _ O) as OH. pose proof (ur_P _ _ _ _ _ _ _ _ _ O) as OP.
  rewrite OH in SH. rewrite OP in SPP.
  destruct (grH rf) as [|H0 [|H1 [|H2 [|H3 [|H4 [|H5 [|]]]]]]] eqn:EH;
    try (exfalso; repeat (apply two_cons in SH; destruct SH as [_ SH]); inversion SH; fail).
  destruct (grP rf) as [|P0 [|P1 [|P2 [|P3 [|P4 [|P5 [|P6 [|]]]]]]]] eqn:EP;
    try (exfalso; repeat (apply two_cons in SPP; destruct SPP as [_ SPP]); inversion SPP; fail).
  apply two_cons in SH. destruct SH as [S0 SH]. apply two_cons in SH. destruct SH as [S1 SH]. apply two_cons in SH. destruct SH as [S2 SH].
  apply two_cons in SH. destruct SH as [S3 SH]. apply two_cons in SH. destruct SH as [S4 SH]. apply two_cons in SH. destruct SH as [S5 _].
  apply two_cons in SPP. destruct SPP as [T0 SPP]. apply two_cons in SPP. destruct SPP as [T1 SPP]. apply two_cons in SPP. destruct SPP as [T2 SPP].
  apply two_cons in SPP. destruct SPP as [T3 SPP]. apply two_cons in SPP. destruct SPP as [T4 SPP]. apply two_cons in SPP. destruct SPP as [T5 SPP]. apply two_cons in SPP. destruct SPP as [T6 _].
  unfold extent in EX. rewrite OP in EX. cbn [fold_right] in EX.
  pose proof (norm_nonneg p0) as N0. pose proof (norm_nonneg p1) as N1. pose proof (norm_nonneg p2) as N2. pose proof (norm_nonneg p3) as N3. pose proof (norm_nonneg p4) as N4. pose proof (norm_nonneg p5) as N5'. pose proof (norm_nonneg p6) as N6.
  pose proof (norm_nonneg (tp pose)) as NT. pose proof (shift_nonneg (tool_transform r)) as NS1. pose proof (shift_nonneg (rflange r)) as NS2. pose proof (shift_nonneg (rbase r)) as NS3.
  assert (RM' : rg 380 M) by (apply (rg_weak 150); [lia | exact RM]).
  destruct (link_ok L bdot HD HL M P6 P5 p6 p5 _ RM' T6 T5 ltac:(lra) (or_intror eq_refl)) as (F6 & E6 & B6).
  destruct (unapply_ok L bdot HD HL M rf r posef pose RM' SR SP ltac:(lra)) as (MQ & (FT & ET & BT) & BT').
  set (Q := tR (unapply_aux r pose)) in *. set (tT := tp (unapply_aux r pose)) in *.
  destruct (FactsIkOk.wrist_unique r pose _ R06 v W WO) as [EV _]. fold Q tT in EV.
  assert (VF : forall X q, stored3 M X q -> SpecRound.vfin (A := b64_arith L bdot) bfin X /\ SpecRound.vval (A := b64_arith L bdot) bval X = q).
  { intros X q (A0 & A1 & A2 & Eq & _). split; [repeat split; assumption | symmetry; exact Eq]. }
  destruct (VF _ _ T0) as [F0 V0]. destruct (VF _ _ T1) as [F1 V1]. destruct (VF _ _ T2) as [F2 V2]. destruct (VF _ _ T3) as [F3 V3']. destruct (VF _ _ T4) as [F4 V4]. clear VF.
  set (q6 := SpecRound.vval (A := b64_arith L bdot) bval (g_vadd (b64_arith L bdot) P6 P5)) in *.
  set (pf := g_unapply_aux (b64_arith L bdot) rf posef) in *.
  set (qT := SpecRound.vval (A := b64_arith L bdot) bval (gp pf)) in *.
  assert (UM : 0 < uu * M) by (apply Rmult_lt_0_compat; lra).
  assert (UM' : uu * M <= 12 / 100000000000000000 * M) by (apply Rmult_le_compat_r; lra).
  pose proof (norm_triangle p6 p5) as N65.
  assert (NB : forall a b e, norm (vsub a b) <= e -> norm a <= norm b + e).
  { intros a b e He. replace a with (vadd b (vsub a b)) by la_ring. eapply Rle_trans; [apply norm_triangle|]. lra. }
  pose proof (NB _ _ _ E6) as G6. pose proof (NB _ _ _ ET) as GT'.
  assert (UE : unit3 ey) by (unfold unit3, norm2, dot, ey; cbn; ring).
  assert (U0 : unit3 ez) by apply S0. assert (U1 : unit3 h) by apply S1. assert (U4 : unit3 (vneg ez)) by apply S4.
  assert (SQ : is_SO3 Q) by apply MQ.
  (* the exact joint values against the exact arm and wrist *)
  assert (GOW : forall u, vadd p0 (mvec (rot ez a1) (vadd p1 (mvec (rot h a2) (vadd p2 (mvec (rot h a3) (vadd p3 (mvec (rot h a4) (vadd p4 (mvec (rot (vneg ez) a5) (mvec (rot h a6) (vadd (vadd p6 p5) u))))))))))) = vadd (mvec Q u) tT).
  { intros u. destruct (FactsRobot6.point6_onto r u W) as [x <-]. specialize (GO x). rewrite (ur_chain _ _ _ _ _ _ _ _ _ _ _ _ _ _ _ _ O) in GO.
    rewrite (FactsRobot6.pose_split r pose x W) in GO. rewrite !rot_rotate by assumption. exact (FactsRobot6.act_opt_inj _ _ _ (wf_base r W) GO). }
  destruct (split_ur _ _ _ _ _ _ _ _ _ _ _ _ _ _ GOW) as [ARM WR]. clear GOW.
  set (cvf := FactsArm64.cv L bdot (g_vadd (b64_arith L bdot) P6 P5) (gp pf) Q).
  assert (CV : norm (vsub cvf v) <= 3802 * (uu * M)).
  { unfold cvf, FactsArm64.cv. fold qT q6. rewrite EV. replace (vsub (vsub qT (mvec Q q6)) (vsub tT (mvec Q (vadd p6 p5)))) with (vsub (vsub qT tT) (mvec Q (vsub q6 (vadd p6 p5)))) by (rewrite mvec_vsub; generalize (mvec Q q6) (mvec Q (vadd p6 p5)); intros; la_ring).
    eapply Rle_trans; [apply norm_vsub_le|]. rewrite norm_SO3 by exact SQ. lra. }
  assert (K1' : M <= 1001 / 1000 * rho * Rabs (turn_rate ey cvf (vneg ez) a1)).
  { pose proof (rate_near ey v cvf (vneg ez) a1 U4) as X. rewrite (norm_unit _ UE), Rmult_1_l, norm_vsub_sym in X. set (x := turn_rate ey v (vneg ez) a1) in *. set (y := turn_rate ey cvf (vneg ez) a1) in *.
    pose proof (Rabs_triang_inv x (x - y)) as TI. replace (x - (x - y)) with y in TI by ring. assert (rho * Rabs x <= rho * (Rabs y + 3802 * (uu * M))) by (apply Rmult_le_compat_l; lra). assert (rho * (3802 * (uu * M)) <= 31 * (3802 * (uu * M))) by (apply Rmult_le_compat_r; lra). lra. }
  assert (EXF : rotate h a2 (vadd p2 (rotate h a3 p3)) = vsub (vsub (vsub (rotate ez (- a1) v) p0) p1) (rotate h (a2 + a3 + a4) p4)).
  { apply arm_form; try assumption; [apply (ur_p0 _ _ _ _ _ _ _ _ _ O)|]. rewrite EV, <- ARM, !rot_rotate by assumption. reflexivity. }
  assert (EXQ : forall u, mvec Q u = rotate ez a1 (rotate h (a2 + a3 + a4) (rotate (vneg ez) a5 (rotate h a6 u)))) by (intros u; rewrite WR, !rot_rotate, (rotate_twice h a3 a4), (rotate_twice h a2) by assumption; replace (a2 + (a3 + a4)) with (a2 + a3 + a4) by ring; reflexivity).
  assert (HA' : libm_arc_ok L (8 * uu)) by (rewrite <- b50; exact HA).
  set (z := GN (A := b64_arith L bdot) (match grlower rf, grupper rf with Some l, Some u => Some (l, u) | _, _ => None end) last).
  assert (K := ur_core_find L bdot f HD HL HT HA' HG HF H0 H1 H2 H3 H4 H5 P0 P1 P2 P3 P4 (g_vadd (b64_arith L bdot) P6 P5) (gR pf) (gp pf) ez h (vneg ez) Q M S0 S1 S2 S3 S4 S5 MQ F0 F1 F2 F3 F4 F6 FT RM (proj1 RM0)).
  unfold ca, FactsArm64.c2 in K. rewrite V0, V1, V2, V3', V4 in K. fold q6 qT cvf in K.
  set (rh := 1001 / 1000 * rho) in *. assert (RH : rho <= rh) by (unfold rh; lra).
  assert (R2 : 0 <= rho * rho /\ rh * rh = 1002001 / 1000000 * (rho * rho)) by (split; [apply Rle_0_sqr|unfold rh; field]). destruct R2 as [R2 RH2].
  assert (W2 : 0 <= w * w) by apply Rle_0_sqr. set (W3 := w * w * w) in *. assert (W30 : 0 <= W3) by (apply Rmult_le_pos; lra). assert (R2W : 0 <= rho * rho * W3) by (apply Rmult_le_pos; lra).
  assert (RHW : rh * rh * W3 <= 16384) by (rewrite RH2, Rmult_assoc; lra).
  assert (BP : bpow radix2 (-38) = 32768 * uu /\ bpow radix2 (-16) = 137438953472 * uu /\ bpow radix2 (-18) = 34359738368 * uu /\ bpow radix2 (-22) = 2147483648 * uu /\ bpow radix2 (-19) = 17179869184 * uu).
  { rewrite UV. cbn. repeat split; lra. }
  destruct BP as (B38 & B16 & B18 & B22 & B19).
  assert (URW : 0 <= uu * (rho * rho * W3)) by (apply Rmult_le_pos; lra).
  set (m := bpow radix2 (-16) * (rho * rho * W3)) in *.
  assert (RO : forall i a, i <> 4%nat -> nth_error [a1; a2; a3; a4; a5; a6] i = Some a -> room L bdot z i m a).
  { intros i a I4 NA. split; [unfold z; cbn [gnlast]; destruct last as [lj|]; [exact (NLS lj i a eq_refl I4 NA)|exact I]|]. unfold z. cbn [gnlimits]. destruct (grlower rf) as [ls|]; [|exact I]. destruct (grupper rf) as [us|]; [|exact I].
    destruct (LIM ls us eq_refl eq_refl) as [CLR _]. exact (CLR i a I4 NA). }
  assert (CL : gnlimits z <> None -> Rabs a4 <= 14 / 5 /\ forall t x : b64, g_normalize (b64_arith L bdot) b_rem z 1 t = Ok (Some x) \/ g_normalize (b64_arith L bdot) b_rem z 2 t = Ok (Some x) -> Rabs (bval x) <= PI).
  { intros NL. destruct (grlower rf) as [ls|] eqn:EL; [|exfalso; apply NL; reflexivity]. destruct (grupper rf) as [us|] eqn:EU; [|exfalso; apply NL; reflexivity].
    destruct (LIM ls us eq_refl eq_refl) as (CLR & HT1 & HT2 & B4). split; [exact B4|]. intros t x [NX|NX].
    - destruct (CLR 1%nat a2 ltac:(lia) eq_refl) as (l & u & NL1 & NU1 & FL & FU & _). destruct (PropNorm.C87_binary64 L bdot z ls us 1 l u t x eq_refl NL1 NU1 FL FU NX) as [_ BX]. destruct (HT1 l u NL1 NU1). apply Rabs_le. lra.
    - destruct (CLR 2%nat a3 ltac:(lia) eq_refl) as (l & u & NL1 & NU1 & FL & FU & _). destruct (PropNorm.C87_binary64 L bdot z ls us 2 l u t x eq_refl NL1 NU1 FL FU NX) as [_ BX]. destruct (HT2 l u NL1 NU1). apply Rabs_le. lra. }
  specialize (K ltac:(lra) (ur_h _ _ _ _ _ _ _ _ _ O) (ur_p0 _ _ _ _ _ _ _ _ _ O) (FactsUr.ez_p0y _ (ur_p0 _ _ _ _ _ _ _ _ _ O)) (FactsUr.h_ez _ (ur_h _ _ _ _ _ _ _ _ _ O)) a1 a2 a3 a5 a6 (a2 + a3 + a4) rh w).
  destruct K with (z := z) (m := m) (a4 := a4) (sols := sols) as (x1 & x2 & x3 & x4 & x5 & x6 & I & X1 & X2 & X3 & X4 & X5 & X6); try assumption.
  - unfold rh. lra.
  - rewrite EXF. replace (vsub (vsub (vsub (vsub (rotate ez (- a1) v) p0) p1) (rotate h (a2 + a3 + a4) p4)) (vsub (vsub (vsub (rotate ez (- a1) cvf) p0) p1) (rotate h (a2 + a3 + a4) p4))) with (vsub (rotate ez (- a1) v) (rotate ez (- a1) cvf)) by (generalize (rotate ez (- a1) v) (rotate ez (- a1) cvf) (rotate h (a2 + a3 + a4) p4); intros; la_ring).
    rewrite PropMove.rotate_sub, norm_vsub_sym by exact U0. lra.
  - eapply Rle_trans; [exact K3|]. apply Rmult_le_compat_r; [apply Rabs_pos|exact RH].
  - eapply Rle_trans; [exact K2|]. apply Rmult_le_compat_r; [apply norm_nonneg|exact RH].
  - reflexivity.
  - fold W3. unfold m. rewrite B16, RH2. lra.
  - apply RO; [lia|reflexivity].
  - apply RO; [lia|reflexivity].
  - apply RO; [lia|reflexivity].
  - apply RO; [lia|reflexivity].
  - apply RO; [lia|reflexivity].
  - intros t1 q1 CB1 I1 N1'. exact (ur_find (b64_arith L bdot) f b_rem argsort H0 H1 H2 H3 H4 H5 P0 P1 P2 P3 P4 P5 P6 rf posef last sols t1 q1 EH EP E SO CB1 I1 N1').
  - exists [x1; x2; x3; x4; x5; x6]. split; [exact I|].
    assert (UR : 0 <= uu * rho) by (apply Rmult_le_pos; lra). assert (URW' : 0 <= uu * (rho * W3)) by (apply Rmult_le_pos; [lra|apply Rmult_le_pos; lra]). assert (UW : 0 <= uu * W3) by (apply Rmult_le_pos; lra). assert (UWW : 0 <= uu * (w * w)) by (apply Rmult_le_pos; lra).
    fold W3 in X2, X3, X4, X6. rewrite RH2 in X2, X4.
    assert (TH : forall i y a d, nth_error [x1; x2; x3; x4; x5; x6] i = Some y -> nth_error [a1; a2; a3; a4; a5; a6] i = Some a -> nth_error tol i = Some d -> same_angle d (bval y) a /\ (i <> 4%nat -> there L bdot z d (bval y) a)).
    2:{ split; [split; [reflexivity|]|intros LN]; [intros i y a d NX NA ND; exact (proj1 (TH i y a d NX NA ND))|]. intros i y a d I4 NX NA ND. exact (proj2 (proj2 (TH i y a d NX NA ND) I4) LN). }
    assert (TW : forall e e' x a, e <= e' -> there L bdot z e x a -> same_angle e' x a /\ (forall i : nat, i <> 4%nat -> there L bdot z e' x a)) by (intros e e' x a H H'; pose proof (there_weak L bdot z e e' x a H H') as H''; split; [apply H''|intros _ _; exact H'']).
    unfold tol, m. rewrite B38, B16, B18, B22, B19.
    intros i y a d NX NA ND. destruct i as [|[|[|[|[|[|i]]]]]]; cbn [nth_error] in NX, NA, ND; [injection NX as <-; injection NA as <-; injection ND as <- ..|destruct i; discriminate NX].
    + assert (Y : forall d, same_angle d (bval x1) a1 /\ (forall i : nat, i <> 4%nat -> there L bdot z d (bval x1) a1) -> same_angle d (bval x1) a1 /\ (0%nat <> 4%nat -> there L bdot z d (bval x1) a1)) by (intros d [Q1 Q2]; split; [exact Q1|exact (Q2 _)]). apply Y. eapply TW; [|exact X1]. unfold rh. lra.
    + assert (Y : forall d, same_angle d (bval x2) a2 /\ (forall i : nat, i <> 4%nat -> there L bdot z d (bval x2) a2) -> same_angle d (bval x2) a2 /\ (1%nat <> 4%nat -> there L bdot z d (bval x2) a2)) by (intros d [Q1 Q2]; split; [exact Q1|exact (Q2 _)]). apply Y. eapply TW; [|exact X2]. lra.
    + assert (Y : forall d, same_angle d (bval x3) a3 /\ (forall i : nat, i <> 4%nat -> there L bdot z d (bval x3) a3) -> same_angle d (bval x3) a3 /\ (2%nat <> 4%nat -> there L bdot z d (bval x3) a3)) by (intros d [Q1 Q2]; split; [exact Q1|exact (Q2 _)]). apply Y. eapply TW; [|exact X3]. unfold rh. lra.
    + assert (Y : forall d, same_angle d (bval x4) a4 /\ (forall i : nat, i <> 4%nat -> there L bdot z d (bval x4) a4) -> same_angle d (bval x4) a4 /\ (3%nat <> 4%nat -> there L bdot z d (bval x4) a4)) by (intros d [Q1 Q2]; split; [exact Q1|exact (Q2 _)]). apply Y. eapply TW; [|exact X4]. lra.
    + split; [eapply same_weak; [|exact X5]; lra|intros X; destruct (X eq_refl)].
    + assert (Y : forall d, same_angle d (bval x6) a6 /\ (forall i : nat, i <> 4%nat -> there L bdot z d (bval x6) a6) -> same_angle d (bval x6) a6 /\ (5%nat <> 4%nat -> there L bdot z d (bval x6) a6)) by (intros d [Q1 Q2]; split; [exact Q1|exact (Q2 _)]). apply Y. eapply TW; [|exact X6]. lra.
Qed.

(** A solution away from singularities and limits: some vector that comes back is near it, joint by joint. *)
Theorem C112_finds : forall L (f : b64 -> b64) bdot argsort rf r posef pose sols a1 a2 a3 a4 a5 a6 M rho w h p0 p1 p2 p3 p4 p5 p6 R06 v,
  In bdot b_dots -> libm_ok L (bpow radix2 (-52)) -> libm_total L -> libm_arc_ok L (bpow radix2 (-50)) -> libm_angle_ok L (bpow radix2 (-50)) -> libm_asin_ok f (bpow radix2 (-50)) ->
  ur r h p0 p1 p2 p3 p4 p5 p6 -> wf_aux r -> stored_robot L bdot M rf r -> stored_pose L bdot M posef pose ->
  1 <= M <= bpow radix2 150 -> 1002 / 1000 * extent r pose <= M -> 1 <= rho <= 31 -> 1 <= w -> rho * rho * (w * w * w) <= 16000 ->
  g_ur_invkin (b64_arith L bdot) f b_rem argsort rf posef None = Ok sols ->
  (forall u, robot_point r [a1; a2; a3; a4; a5; a6] u = act pose u) -> Forall (fun a => Rabs a <= 4) [a1; a2; a3; a4; a6] ->
  (forall ls us, grlower rf = Some ls -> grupper rf = Some us ->
     (forall i a, i <> 4%nat -> nth_error [a1; a2; a3; a4; a5; a6] i = Some a -> clear_at ls us i (bpow radix2 (-16) * (rho * rho * (w * w * w))) a) /\
     half_turn ls us 1 /\ half_turn ls us 2 /\ Rabs a4 <= 14 / 5) ->
  wrist_of r pose (vadd p6 p5) R06 v -> M <= rho * Rabs (turn_rate ey v (vneg ez) a1) -> M * M <= rho * Rabs (reach_rate h p3 p2 a3) ->
  M <= rho * norm (perp ey (vadd p2 (rotate h a3 p3))) -> 1 <= w * Rabs (sin a5) ->
  exists x, In x sols /\ same_angles [bpow radix2 (-38) * rho; bpow radix2 (-16) * (rho * rho * (w * w * w)); bpow radix2 (-18) * (rho * (w * w * w)); bpow radix2 (-16) * (rho * rho * (w * w * w)); bpow radix2 (-22) * (w * w); bpow radix2 (-19) * (w * w * w)] x [a1; a2; a3; a4; a5; a6].
Proof.
  intros. destruct (ur_finds_near L f bdot argsort rf r posef pose None sols a1 a2 a3 a4 a5 a6 M rho w h p0 p1 p2 p3 p4 p5 p6 R06 v) as (x & IX & SX & _); try assumption; [congruence|intros lj i a X; discriminate X|].
  exists x. split; assumption.
Qed.
Print Assumptions C112_finds.

(** The robot of C109_ex: its one solution bends the fifth joint by a quarter turn, past the limits of that joint, and the run finds it. *)
Example C112_ex : forall bdot, In bdot b_dots -> exists sols x, pinu_run bdot = Ok sols /\ (forall u, robot_point pinu_r [0; 0; 0; 0; PI / 2; 0] u = act pinu_goal u) /\ In x sols /\
  same_angles [bpow radix2 (-38) * 21; bpow radix2 (-16) * (21 * 21 * (1 * 1 * 1)); bpow radix2 (-18) * (21 * (1 * 1 * 1)); bpow radix2 (-16) * (21 * 21 * (1 * 1 * 1)); bpow radix2 (-22) * (1 * 1); bpow radix2 (-19) * (1 * 1 * 1)] x [0; 0; 0; 0; PI / 2; 0].
Proof.
  intros bdot HD. pose proof (pinu_runs bdot HD) as RT. destruct (pinu_run bdot) as [sols|] eqn:E; [|discriminate RT]. clear RT.
  destruct pinu_ur as [O W]. assert (R0 : forall k v, rotate k 0 v = v) by (intros; unfold rotate; rewrite sin_0, cos_0; la_ring).
  assert (LE : forall v n, 0 <= n -> n * n <= LinAlg.dot v v -> n <= norm v) by (intros v n P Q; unfold norm, norm2; rewrite <- (sqrt_square n P); apply sqrt_le_1_alt; exact Q).
  assert (GO : forall u, robot_point pinu_r [0; 0; 0; 0; PI / 2; 0] u = act pinu_goal u).
  { intros u. rewrite (ur_chain _ _ _ _ _ _ _ _ _ _ _ _ _ _ _ _ O). rewrite !R0. unfold rotate. rewrite cos_PI2, sin_PI2.
    destruct u as [x y z]. unfold point6, act, act_tool, pinu_goal, pinu_R06, ez, ex, ey. cbn. la_ring. }
  pose proof PI2_3_2 as P3.
  exists sols. destruct (C112_finds pinu_libm pin_asin bdot (fun _ => []) (pinu_rf bdot) pinu_r (pinu_pose bdot) pinu_goal sols 0 0 0 0 (PI / 2) 0 22 21 1 ey ez ey (V3 3 0 0) (V3 0 0 4) (V3 0 (-1) 0) ey ex pinu_R06 (V3 3 0 5)
      HD pinu_ok pinu_total pin_arc pin_angle pin_asin_ok O W (pinu_robot 22 bdot ltac:(lra)) (pinu_posed 22 bdot ltac:(lra))) as (x & IX & SX); try lra; try assumption.
  - split; [lra|]. apply Rle_trans with (bpow radix2 5); [cbn; lra|apply bpow_le; lia].
  - exact pinu_extent.
  - repeat (constructor; [apply Rabs_le; lra|]). constructor.
  - intros ls us [= <-] [= <-]. destruct (pin_int (-1) ltac:(lia)) as [FL VL]. destruct (pin_int 1 ltac:(lia)) as [FU VU].
    assert (ALL : forall i, (i < 6)%nat -> nth_error (map b_ofZ [-1;-1;-1;-1;-1;-1]%Z) i = Some (b_ofZ (-1)) /\ nth_error (map b_ofZ [1;1;1;1;1;1]%Z) i = Some (b_ofZ 1)) by (intros i Hi; do 6 (destruct i as [|i]; [split; reflexivity|]); lia).
    assert (HALF : forall i, (i < 6)%nat -> half_turn (map b_ofZ [-1;-1;-1;-1;-1;-1]%Z) (map b_ofZ [1;1;1;1;1;1]%Z) i).
    { intros i Hi l u NL NU. destruct (ALL i Hi) as [A1 A2]. rewrite A1 in NL. rewrite A2 in NU. assert (l = b_ofZ (-1)) as -> by congruence. assert (u = b_ofZ 1) as -> by congruence. rewrite VL, VU. lra. }
    split; [|split; [apply HALF; lia|split; [apply HALF; lia|rewrite Rabs_R0; lra]]].
    intros i a I4 NA. assert (LI : (i < 6)%nat) by (apply (nth_error_Some [0; 0; 0; 0; PI / 2; 0]); rewrite NA; discriminate). destruct (ALL i LI) as [A1 A2].
    exists (b_ofZ (-1)), (b_ofZ 1). split; [exact A1|]. split; [exact A2|]. split; [exact FL|]. split; [exact FU|]. rewrite VL, VU.
    assert (a = 0) by (do 6 (destruct i as [|i]; [cbn in NA; congruence|]); lia). subst a. assert (bpow radix2 (-16) * (21 * 21 * (1 * 1 * 1)) <= 1 / 10) by (cbn; lra). lra.
  - intros [x y z]. unfold act, point6, act_tool, pinu_goal, pinu_R06, ez, ex, ey. cbn. la_ring.
  - unfold turn_rate. rewrite R0. assert (3 <= Rabs (LinAlg.dot ey (cross (vneg ez) (V3 3 0 5)))) by (unfold LinAlg.dot, cross, vneg, ey, ez; cbn; unfold Rabs; destruct Rcase_abs; lra). lra.
  - unfold reach_rate. rewrite R0. assert (24 <= Rabs (2 * LinAlg.dot (V3 3 0 0) (cross ey (V3 0 0 4)))) by (unfold LinAlg.dot, cross, vadd, ey; cbn; unfold Rabs; destruct Rcase_abs; lra). lra.
  - rewrite R0. assert (5 <= norm (perp ey (vadd (V3 3 0 0) (V3 0 0 4)))) by (apply LE; [lra|]; unfold perp, ey, vsub, vadd, vscale, LinAlg.dot; cbn [vx vy vz]; lra). lra.
  - rewrite sin_PI2, Rabs_R1. lra.
  - exists x. auto.
Qed.
Print Assumptions C112_ex.
