(** robot6_sphericalwrist_invkin in binary64: the joints together, the corrected link vectors and the pose without the
    auxiliary transforms. *)
From Coq Require Import Reals ZArith List Bool Lra Lia Psatz.
From Flocq Require Import Core.Core IEEE754.BinarySingleNaN.
From Verif Require Import LinAlg RealAux Py FactsReal FactsLinAlg ModelRot SpecRot FactsRot FactsNorm SpecSub FactsSub ModelFloat ModelFloat2 ModelFloat3 ModelFloat6 ModelFloat9 ModelFloat10 ModelFloat11 SpecRound FactsRound FactsB64 FactsExact FactsTrack SpecArc SpecSub4 SpecRpy FactsIk64 FactsPath64 FactsJoint64 FactsArm64 FactsWrist64 ModelTransform ModelRobot ModelKin SpecKin SpecInvkin FactsKin SpecArc2 SpecRobot64 ModelInvkin.
From Verif Require FactsRobot6 FactsIkGeo PropSub4 PropSub2 PropMove.
Import ListNotations.
Open Scope R_scope.

Lemma perp_turned N h v : is_SO3 N -> unit3 h -> norm (perp h (mvec (mT N) v)) = norm (perp (mvec N h) v).
Proof.
  intros S U. assert (E : perp (mvec N h) v = mvec N (perp h (mvec (mT N) v))).
  { unfold perp. rewrite mvec_vsub, mvec_vscale, SO3_vec_T, dot_mvec_l, mT_mT by exact S. reflexivity. }
  rewrite E, norm_SO3 by exact S. reflexivity.
Qed.

Section Core.
Context (L : libm) (bdot : list b64 -> list b64 -> b64) (f : b64 -> b64) (HD : In bdot b_dots) (HL : libm_ok L (bpow radix2 (-52))) (HT : libm_total L)
  (HA : libm_arc_ok L (8 * uu)) (HG : libm_angle_ok L (bpow radix2 (-50))) (HF : libm_asin_ok f (bpow radix2 (-50))).
Notation A := (b64_arith L bdot).
Notation vval := (SpecRound.vval (A := b64_arith L bdot) bval).
Notation vfin := (SpecRound.vfin (A := b64_arith L bdot) bfin).
Notation mc := (FactsPath64.mc L bdot).
Notation vc := (FactsPath64.vc L bdot).
Context (H0 H1 H2 H3 H4 H5 P0 P1 P2 P3 P6 : v3 b64) (R06 : m3 b64) (pT : v3 b64) (h0 h1 h2 h3 h4 h5 : vec3) (Q : mat3) (M r : R).
Context (S0 : stored_axis3 H0 h0) (S1 : stored_axis3 H1 h1) (S2 : stored_axis3 H2 h2) (S3 : stored_axis3 H3 h3) (S4 : stored_axis3 H4 h4) (S5 : stored_axis3 H5 h5) (MQ : mc 2200 R06 Q).
Context (F0 : vfin P0) (F1 : vfin P1) (F2 : vfin P2) (F3 : vfin P3) (F6 : vfin P6) (FT : vfin pT).
Notation p0 := (vval P0). Notation p1 := (vval P1). Notation p2 := (vval P2). Notation p3 := (vval P3). Notation p6 := (vval P6). Notation T := (vval pT).
Context (RM : rg 150 M) (SZ : 1001 / 1000 * (norm p0 + norm p1 + norm p2 + norm p3 + norm p6 + norm T) <= M) (R1 : 1 <= r <= 1024).
Context (E1 : h1 = ey \/ h1 = vneg ey) (E2 : h2 = ey \/ h2 = vneg ey) (O0 : on_axis h0 p0) (Y0 : vy p0 = 0) (P34 : dot h3 h4 = 0) (P35 : h5 = h3 \/ h5 = vneg h3).
Context (LA : M <= r * norm (perp ey p2)) (LB : M <= r * norm (perp ey p3)).

Lemma core z (x1 x2 x3 x4 x5 x6 : b64) : trace A f b_rem H0 H1 H2 H3 H4 H5 P0 P1 P2 P3 P6 R06 pT z [x1; x2; x3; x4; x5; x6] ->
  Forall (fun y => bfin y /\ Rabs (bval y) <= 1024) [x1; x2; x3; x4; x5; x6] ->
  M <= r * norm (perp ey (vadd p2 (rotate h2 (bval x3) p3))) ->
  1 <= r * norm (perp (rotate h0 (bval x1) (rotate h1 (bval x2) (rotate h2 (bval x3) h3))) (mvec Q h5)) ->
  forall u, norm (vsub (vadd p0 (rotate h0 (bval x1) (vadd p1 (rotate h1 (bval x2) (vadd p2 (rotate h2 (bval x3) (vadd p3 (rotate h3 (bval x4) (rotate h4 (bval x5) (rotate h5 (bval x6) (vadd p6 u)))))))))))
                       (vadd T (mvec Q u))) <= sqrt_eps + (542800000 * M + 1220000000 * (norm p6 + norm u)) * uu * r.
Proof.
  intros (q1 & q2 & q3 & q4 & q5 & q6 & t1 & t2 & t3 & t4 & t5 & t6 & Q3 & Q45 & EX & (I1 & N1) & (E3 & I3 & N3) & (EE2 & N2) & (E45 & I45 & N4 & N5) & (EE6 & N6)) FX OFF OFW u.
  injection EX as <- <- <- <- <- <-. 
  assert (FB : forall y, In y [x1; x2; x3; x4; x5; x6] -> bfin y /\ Rabs (bval y) <= 1024) by (apply Forall_forall; exact FX). clear FX.
  destruct (FB x1 ltac:(cbn; tauto)) as [FX1 BX1]. destruct (FB x2 ltac:(cbn; tauto)) as [FX2 BX2]. destruct (FB x3 ltac:(cbn; tauto)) as [FX3 BX3].
  destruct (FB x4 ltac:(cbn; tauto)) as [FX4 BX4]. destruct (FB x5 ltac:(cbn; tauto)) as [FX5 BX5]. destruct (FB x6 ltac:(cbn; tauto)) as [FX6 BX6]. clear FB.
  assert (UH0 : unit3 h0) by apply S0. assert (UH1 : unit3 h1) by apply S1. assert (UH2 : unit3 h2) by apply S2. assert (UH3 : unit3 h3) by apply S3. assert (UH4 : unit3 h4) by apply S4. assert (UH5 : unit3 h5) by apply S5.
  assert (MP0 : 0 < M) by (apply (rg_pos 150); exact RM). pose proof uu_pos as UP.
  assert (big : forall v, M <= r * norm (perp ey v) -> M <= 1048576 * norm (perp h2 v)).
  { intros v H. rewrite (same_perp h2 ey v E2). pose proof (norm_nonneg (perp ey v)) as NN. assert (r * norm (perp ey v) <= 1048576 * norm (perp ey v)) by (apply Rmult_le_compat_r; lra). lra. }
  pose proof (base_height L bdot f HD HL HG HF H0 P0 P1 P2 P3 P6 R06 pT h0 Q M S0 MQ F1 F2 F3 F6 FT RM SZ Y0 z t1 x1 I1 N1 FX1 BX1) as BH.
  pose proof (elbow L bdot HD HL HT HA H0 H2 P0 P1 P2 P3 P6 R06 pT h0 h1 h2 Q M S0 S2 MQ F0 F1 F2 F3 F6 FT RM SZ E1 E2 z x1 t3 x3 Q3 FX1 E3 I3 N3 FX3 BX3 (big p2 LA) (big p3 LB)) as EL.
  pose proof (shoulder L bdot HD HL HT HA H0 H1 H2 P0 P1 P2 P3 P6 R06 pT h0 h1 h2 Q M S0 S1 S2 MQ F0 F1 F2 F3 F6 FT RM SZ E1 E2 z x1 t2 x2 x3 r FX1 FX3 EE2 N2 FX2 BX2 R1 OFF BH EL) as SH.
  clear BH EL I1 E3 I3 EE2.
  set (N := mmul (mmul (rot h0 (bval x1)) (rot h1 (bval x2))) (rot h2 (bval x3))).
  assert (M03 : mc 3475 (w_R03 A H0 H1 H2 x1 x2 x3) N).
  { unfold w_R03, w_R01, N. eapply mc_weak; [|apply (mc_mul L bdot HD HL (1143 + 1143 + 23) 1143); [lra|lra| |apply rot_mc; assumption]; apply mc_mul; try assumption; try lra; apply rot_mc; assumption]. lra. }
  assert (NV : forall v, mvec N v = rotate h0 (bval x1) (rotate h1 (bval x2) (rotate h2 (bval x3) v))) by (intros v; unfold N; rewrite !mvec_mmul, !rot_rotate by assumption; reflexivity).
  assert (SN : is_SO3 N) by apply M03.
  assert (OFW' : 1 <= r * norm (perp h3 (u4 h5 N Q))) by (unfold u4; rewrite perp_turned, NV by assumption; exact OFW).
  pose proof (wrist_dir L bdot HD HL HA H3 H4 H5 (w_R03 A H0 H1 H2 x1 x2 x3) R06 h3 h4 h5 N Q S3 S4 S5 M03 MQ P34 P35 r R1 OFW' z Q45 t4 t5 x4 x5 E45 I45 N4 N5 FX4 FX5 BX4 BX5) as WD.
  pose proof (wrist_turn L bdot HD HA H3 H4 H5 (w_R03 A H0 H1 H2 x1 x2 x3) R06 h3 h4 h5 N Q S3 S4 S5 M03 MQ P34 P35 r R1 x4 x5 WD _ (v6_ok L bdot HD HL HT H3 H4 (w_R03 A H0 H1 H2 x1 x2 x3) R06 h3 h4 N Q S3 S4 M03 MQ x4 x5 FX4 FX5) z t6 x6 EE6 N6 FX6 BX6 (vadd p6 u)) as WT.
  rewrite NV in WT. set (y := rotate h3 (bval x4) (rotate h4 (bval x5) (rotate h5 (bval x6) (vadd p6 u)))) in *.
  assert (EQ : vsub (vadd p0 (rotate h0 (bval x1) (vadd p1 (rotate h1 (bval x2) (vadd p2 (rotate h2 (bval x3) (vadd p3 y))))))) (vadd T (mvec Q u))
    = vadd (rotate h0 (bval x1) (vsub (rotate h1 (bval x2) (c2 L bdot P2 P3 h2 (bval x3))) (c26 L bdot P0 P1 P6 pT h0 Q (bval x1))))
           (vsub (rotate h0 (bval x1) (rotate h1 (bval x2) (rotate h2 (bval x3) y))) (mvec Q (vadd p6 u)))).
  { unfold c2, c26, cv. rewrite <- (turn_axis h0 (bval x1) p0 UH0 O0) at 1. rewrite !turn_add, !PropSub2.turn_sub, !turn_add, !mvec_vadd.
    assert (B : forall v, rotate h0 (bval x1) (rotate h0 (- bval x1) v) = v) by (intros v; pose proof (PropSub2.turn_back h0 (- bval x1) v UH0) as TB; rewrite Ropp_involutive in TB; exact TB).
    rewrite !B. generalize (rotate h0 (bval x1) p0) (rotate h0 (bval x1) p1) (rotate h0 (bval x1) (rotate h1 (bval x2) p2)) (rotate h0 (bval x1) (rotate h1 (bval x2) (rotate h2 (bval x3) p3))) (rotate h0 (bval x1) (rotate h1 (bval x2) (rotate h2 (bval x3) y))) T (mvec Q p6) (mvec Q u).
    intros. unfold vsub, vadd. cbn [vx vy vz]. f_equal; ring. }
  rewrite EQ. eapply Rle_trans; [apply norm_triangle|]. rewrite PropSub2.turn_norm by exact UH0.
  pose proof (norm_triangle p6 u) as TR. assert (UR : 0 <= 1220000000 * uu * r) by (apply Rmult_le_pos; lra).
  assert (W2 : 1220000000 * uu * r * norm (vadd p6 u) <= 1220000000 * uu * r * (norm p6 + norm u)) by (apply Rmult_le_compat_l; [exact UR|exact TR]).
  replace ((542800000 * M + 1220000000 * (norm p6 + norm u)) * uu * r) with (542800000 * uu * M * r + 1220000000 * uu * r * (norm p6 + norm u)) by ring. lra.
Qed.
End Core.

Section Around.
Context (L : libm) (bdot : list b64 -> list b64 -> b64) (HD : In bdot b_dots) (HL : libm_ok L (bpow radix2 (-52))).
Notation A := (b64_arith L bdot).
Notation vval := (SpecRound.vval (A := b64_arith L bdot) bval).
Notation vfin := (SpecRound.vfin (A := b64_arith L bdot) bfin).
Notation mc := (FactsPath64.mc L bdot).
Notation vc := (FactsPath64.vc L bdot).
(* ---- the pose without the auxiliary transforms ---- *)
Lemma pose_mc M a T : stored_pose L bdot M a T -> mc 512 (gR a) (tR T) /\ vc M 0 (gp a) (tp T).
Proof.
  intros (S & ((N00 & N01 & N02) & (N10 & N11 & N12) & (N20 & N21 & N22)) & (G0 & G1 & G2 & EV & NV)). split.
  - split; [repeat split; (apply N00 || apply N01 || apply N02 || apply N10 || apply N11 || apply N12 || apply N20 || apply N21 || apply N22)|]. split; [|exact S].
    pose proof uu_pos as UP. assert (B46 : bpow radix2 (-46) = 128 * uu) by (rewrite uu_val'; cbn; lra). rewrite B46 in *.
    apply Rle_trans with (frob (mconst (128 * uu))); [|eapply Rle_trans; [apply frob_mconst; lra|lra]].
    apply frob_mono. unfold mle, mabs, mconst, msub, SpecRound.mval. cbn [m00 m01 m02 m10 m11 m12 m20 m21 m22]. repeat split; (apply N00 || apply N01 || apply N02 || apply N10 || apply N11 || apply N12 || apply N20 || apply N21 || apply N22).
  - rewrite EV in *. apply (vc_exact L bdot M (gp a)); [repeat split; assumption|exact NV].
Qed.
Lemma neg_vc M c x v : vc M c x v -> vc M c (g_vneg A x) (vneg v).
Proof.
  intros ((G0 & G1 & G2) & E & N). 
  assert (F : forall y, bfin y -> bfin (nneg A y)) by (intros y HY; unfold bfin in *; cbn [nneg b64_arith]; rewrite is_finite_Bopp; exact HY).
  assert (V : forall y, bval (nneg A y) = - bval y) by (intros y; unfold bval; cbn [nneg b64_arith]; apply B2R_Bopp).
  split; [repeat split; apply F; assumption|]. rewrite FactsLinAlg.norm_vneg. split; [|exact N].
  replace (vsub (vval (g_vneg A x)) (vneg v)) with (vneg (vsub (vval x) v)). { rewrite FactsLinAlg.norm_vneg. exact E. }
  unfold g_vneg, SpecRound.vval. cbn [v3map w0 w1 w2]. rewrite !V. unfold vsub, vneg. cbn [vx vy vz]. f_equal; ring.
Qed.
Lemma inv_ok M a T : rg 380 M -> stored_pose L bdot M a T -> mc 512 (gR (g_tinv A a)) (tR (tinv T)) /\ vc M 535 (gp (g_tinv A a)) (tp (tinv T)) /\ norm (tp (tinv T)) = norm (tp T).
Proof.
  intros RM S. destruct (pose_mc M a T S) as [MC VC]. assert (MT : mc 512 (v3cols (gR a)) (mT (tR T))) by (apply mc_T; exact MC). split; [exact MT|]. split.
  - unfold g_tinv, tinv. cbn [gp tp]. apply neg_vc. assert (V : vc M (512 + 0 + 23) (g_mv A (v3cols (gR a)) (gp a)) (mvec (mT (tR T)) (tp T))) by (apply vc_mv; try assumption; lra).
    eapply vc_weak; [|  |exact V]; [pose proof (rg_pos _ _ RM); lra|lra].
  - unfold tinv. cbn [tp]. rewrite FactsLinAlg.norm_vneg, norm_SO3; [reflexivity|]. apply SO3_T. apply S.
Qed.
Lemma mul_ok M a b c d (X Y : gtf A) S T : rg 380 M -> 0 <= a <= 40000 -> 0 <= b <= 40000 -> 0 <= c <= 40000 -> 0 <= d <= 40000 -> mc a (gR X) (tR S) -> vc M b (gp X) (tp S) -> mc c (gR Y) (tR T) -> vc M d (gp Y) (tp T) -> norm (tp S) + norm (tp T) <= M ->
  mc (a + c + 23) (gR (g_tmul A X Y)) (tR (tmul S T)) /\ vc M (b + (a + d + 23) + 2) (gp (g_tmul A X Y)) (tp (tmul S T)) /\ norm (tp (tmul S T)) <= norm (tp S) + norm (tp T).
Proof.
  intros RM Ha Hb Hc Hd MX VX MY VY N. unfold g_tmul, tmul. cbn [gR gp tR tp].
  assert (SS : is_SO3 (tR S)) by apply MX. pose proof (norm_triangle (tp S) (mvec (tR S) (tp T))) as TR. rewrite (norm_SO3 (tR S) (tp T) SS) in TR.
  split; [apply mc_mul; try assumption; lra|]. split; [|exact TR]. apply vc_add; try assumption; try lra. apply vc_mv; try assumption; lra.
Qed.
Lemma unapply_ok M rf r af T : rg 380 M -> stored_robot L bdot M rf r -> stored_pose L bdot M af T -> norm (tp T) + shift_of (tool_transform r) + shift_of (rflange r) + shift_of (rbase r) <= M ->
  mc 2200 (gR (g_unapply_aux A rf af)) (tR (unapply_aux r T)) /\ vc M 3800 (gp (g_unapply_aux A rf af)) (tp (unapply_aux r T)) /\
  norm (tp (unapply_aux r T)) <= norm (tp T) + shift_of (tool_transform r) + shift_of (rflange r) + shift_of (rbase r).
Proof.
  intros RM SR SP SZ. destruct (pose_mc M af T SP) as [M0 V0]. pose proof (rg_pos _ _ RM) as MP0. pose proof (norm_nonneg (tp T)) as NT.
  pose proof (sr_tool _ _ _ _ _ SR) as ST. pose proof (sr_flange _ _ _ _ _ SR) as SF. pose proof (sr_base _ _ _ _ _ SR) as SB. unfold g_unapply_aux, unapply_aux. cbv zeta.
  assert (NS : forall o, 0 <= shift_of o) by (intros [o|]; cbn; [apply norm_nonneg|lra]). pose proof (NS (tool_transform r)) as N1. pose proof (NS (rflange r)) as N2. pose proof (NS (rbase r)) as N3.
  set (X1 := match grtool rf with Some W => g_tmul A af (g_tinv A W) | None => af end). set (T1 := match tool_transform r with Some W => tmul T (tinv W) | None => T end).
  assert (H1 : mc 1047 (gR X1) (tR T1) /\ vc M 1072 (gp X1) (tp T1) /\ norm (tp T1) <= norm (tp T) + shift_of (tool_transform r)).
  { unfold X1, T1. unfold rep_opt in ST. destruct (grtool rf) as [W|], (tool_transform r) as [W'|]; try contradiction; cbn [shift_of] in *.
    - destruct (inv_ok M W W' RM ST) as (MI & VI & NI). destruct (mul_ok M 512 0 512 535 af (g_tinv A W) T (tinv W')) as (MM & VV & NN); try assumption; try lra.
      split; [eapply mc_weak; [|exact MM]; lra|]. split; [eapply vc_weak; [lra| |exact VV]; lra|]. lra.
    - split; [eapply mc_weak; [|exact M0]; lra|]. split; [eapply vc_weak; [lra| |exact V0]; lra|]. lra. }
  clearbody X1 T1. destruct H1 as (M1 & V1 & T1N).
  set (X2 := match grflange rf with Some W => g_tmul A X1 (g_tinv A W) | None => X1 end). set (T2 := match rflange r with Some W => tmul T1 (tinv W) | None => T1 end).
  assert (H2 : mc 1582 (gR X2) (tR T2) /\ vc M 2679 (gp X2) (tp T2) /\ norm (tp T2) <= norm (tp T1) + shift_of (rflange r)).
  { unfold X2, T2. unfold rep_opt in SF. destruct (grflange rf) as [W|], (rflange r) as [W'|]; try contradiction; cbn [shift_of] in *.
    - destruct (inv_ok M W W' RM SF) as (MI & VI & NI). destruct (mul_ok M 1047 1072 512 535 X1 (g_tinv A W) T1 (tinv W')) as (MM & VV & NN); try assumption; try lra.
      split; [eapply mc_weak; [|exact MM]; lra|]. split; [eapply vc_weak; [lra| |exact VV]; lra|]. lra.
    - split; [eapply mc_weak; [|exact M1]; lra|]. split; [eapply vc_weak; [lra| |exact V1]; lra|]. lra. }
  clearbody X2 T2. destruct H2 as (M2 & V2 & T2N).
  unfold rep_opt in SB. destruct (grbase rf) as [W|], (rbase r) as [W'|]; try contradiction; cbn [shift_of] in *.
  - destruct (inv_ok M W W' RM SB) as (MI & VI & NI). destruct (mul_ok M 512 535 1582 2679 (g_tinv A W) X2 (tinv W') T2) as (MM & VV & NN); try assumption; try lra.
    split; [eapply mc_weak; [|exact MM]; lra|]. split; [eapply vc_weak; [lra| |exact VV]; lra|]. lra.
  - split; [eapply mc_weak; [|exact M2]; lra|]. split; [eapply vc_weak; [lra| |exact V2]; lra|]. lra.
Qed.
(* ---- the corrected link vectors ---- *)
Lemma zero_test (x : b64) : bfin x -> g_zero A x = true -> bval x = 0.
Proof.
  intros F H. unfold g_zero in H. apply andb_true_iff in H. destruct H as [H1 H2]. destruct (s_zero _ _ _ _ _ _ _ (SA L bdot HD HL)) as [FZ VZ].
  rewrite (SpecRound.s_le _ _ _ _ _ _ _ (SA L bdot HD HL)) in H1, H2 by assumption. rewrite VZ in *. apply Rleb_true in H1. apply Rleb_true in H2. lra.
Qed.
Lemma vzero_test (v : v3 b64) : vfin v -> g_vzerob A v = true -> vval v = vzero.
Proof.
  intros (G0 & G1 & G2) H. unfold g_vzerob in H. apply andb_true_iff in H. destruct H as [H H2]. apply andb_true_iff in H. destruct H as [H0 H1].
  unfold SpecRound.vval, vzero. f_equal; apply zero_test; assumption.
Qed.
Lemma correct_form H0 H1 H2 H3 H4 H5 P0 P1 P2 P3 P4 P5 P6 P' : g_correct_P A [H0; H1; H2; H3; H4; H5] [P0; P1; P2; P3; P4; P5; P6] = Ok P' ->
  exists P3' P4' P5' P6', P' = [P0; P1; P2; P3'; P4'; P5'; P6'] /\ ((P3' = P3 /\ g_vzerob A P4 = true) \/ P3' = g_vadd A P3 P4) /\ ((P6' = P6 /\ g_vzerob A P5 = true) \/ P6' = g_vadd A P6 P5).
Proof.
  unfold g_correct_P, g_correct. cbn [index nth_error bind].
  destruct (g_vzerob A P4) eqn:Z4.
  - cbn [index nth_error bind]. destruct (g_vzerob A P5) eqn:Z5.
    + cbn [set_nth firstn skipn app index nth_error bind]; intros E; injection E as <-. exists P3, P4, P5, P6. auto.
    + destruct (assert_ _) as [[]|]; cbn [bind]; [|discriminate]. cbn [set_nth firstn skipn app index nth_error bind]; intros E; injection E as <-. exists P3, P4. eexists. eexists. split; [reflexivity|]. auto.
  - destruct (assert_ _) as [[]|]; cbn [bind]; [|discriminate]. cbn [set_nth firstn skipn app index nth_error bind]. destruct (g_vzerob A P5) eqn:Z5.
    + cbn [set_nth firstn skipn app index nth_error bind]; intros E; injection E as <-. eexists. eexists. exists P5, P6. split; [reflexivity|]. auto.
    + destruct (assert_ _) as [[]|]; cbn [bind]; [|discriminate]. cbn [set_nth firstn skipn app index nth_error bind]; intros E; injection E as <-. eexists. eexists. eexists. eexists. split; [reflexivity|]. auto.
Qed.
Lemma link_ok M x y v w z : rg 380 M -> stored3 M x v -> stored3 M y w -> norm v + norm w <= M -> (z = x /\ g_vzerob A y = true) \/ z = g_vadd A x y -> vc M 2 z (vadd v w).
Proof.
  intros RM (X0 & X1 & X2 & EX & NX) (Y0 & Y1 & Y2 & EY & NY) N HZ. pose proof (norm_triangle v w) as TR. pose proof (rg_pos _ _ RM) as MP0.
  assert (VX : vc M 0 x v) by (rewrite EX in *; apply (vc_exact L bdot M x); [repeat split; assumption|exact NX]).
  assert (VY : vc M 0 y w) by (rewrite EY in *; apply (vc_exact L bdot M y); [repeat split; assumption|exact NY]).
  destruct HZ as [(-> & Z) | ->].
  - apply vzero_test in Z; [|repeat split; assumption]. assert (WZ : w = vzero) by (rewrite EY; exact Z). rewrite WZ, vadd_0_r. eapply vc_weak; [lra| |exact VX]. lra.
  - assert (V : vc M (0 + 0 + 2) (g_vadd A x y) (vadd v w)) by (apply vc_add; try assumption; lra). eapply vc_weak; [lra| |exact V]. lra.
Qed.
End Around.
