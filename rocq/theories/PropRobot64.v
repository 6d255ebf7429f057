(** Property C108: robot6_sphericalwrist_invkin in binary64. *)
From Coq Require Import Reals ZArith List Bool Lra Lia Psatz.
From Flocq Require Import Core.Core IEEE754.BinarySingleNaN.
From Verif Require Import LinAlg RealAux Py FactsReal FactsLinAlg ModelRot SpecRot FactsRot FactsNorm SpecSub FactsSub ModelFloat ModelFloat2 ModelFloat3 ModelFloat6 ModelFloat9 ModelFloat10 ModelFloat11 SpecRound FactsRound FactsB64 FactsExact FactsTrack SpecArc SpecSub4 SpecRpy FactsIk64 FactsPath64 FactsJoint64 FactsArm64 FactsWrist64 ModelTransform ModelRobot ModelKin SpecKin SpecInvkin FactsKin SpecArc2 SpecRobot64 FactsRobot64 ModelInvkin.
From Verif Require FactsRobot6 FactsIkGeo FactsIkOk FactsIkMut PropNorm.
From Verif Require Import PropFloat PropPi PropAngle PropRpy PropSub4 PropR2rot PropMove PropIterEnd.
Import ListNotations.
Open Scope R_scope.

Lemma perp_step k a b : unit3 k -> norm (perp k a) <= norm (perp k b) + norm (vsub b a).
Proof.
  intros U. replace (perp k a) with (vsub (perp k b) (perp k (vsub b a))) by (unfold perp; la_ring).
  eapply Rle_trans; [apply norm_vsub_le|]. apply Rplus_le_compat_l, FactsTrack.perp_le, U.
Qed.
Lemma shift_nonneg T : 0 <= shift_of T.
Proof. destruct T; cbn; [apply norm_nonneg | lra]. Qed.
Lemma act_opt_far (T : option transform) x : rigid_opt T -> norm (act_opt T x) <= norm x + shift_of T.
Proof.
  destruct T as [T|]; cbn; [|lra]. intros S. unfold act. eapply Rle_trans; [apply norm_triangle|]. rewrite norm_SO3 by exact S. lra.
Qed.
Lemma point6_far r x : wf_aux r -> norm (point6 r x) <= norm x + shift_of (tool_transform r) + shift_of (rflange r).
Proof.
  intros W. unfold point6. eapply Rle_trans; [apply act_opt_far, (wf_flange r W)|]. apply Rplus_le_compat_r.
  rewrite <- act_tool_transform. apply act_opt_far, rigid_tool, W.
Qed.
(** the chain with the two corrected link vectors replaced *)
Lemma chain_step R0 R1 R2 R3 R4 R5 p0 p1 p2 a a' b b' w e e' : is_SO3 R0 -> is_SO3 R1 -> is_SO3 R2 -> is_SO3 R3 -> is_SO3 R4 -> is_SO3 R5 ->
  norm (vsub a' a) <= e -> norm (vsub b' b) <= e' ->
  norm (vsub (vadd p0 (mvec R0 (vadd p1 (mvec R1 (vadd p2 (mvec R2 (vadd a (mvec R3 (mvec R4 (mvec R5 (vadd b w)))))))))))
             (vadd p0 (mvec R0 (vadd p1 (mvec R1 (vadd p2 (mvec R2 (vadd a' (mvec R3 (mvec R4 (mvec R5 (vadd b' w))))))))))))  <= e + e'.
Proof.
  intros S0 S1 S2 S3 S4 S5 EA EB.
  assert (D : forall p x y, vsub (vadd p x) (vadd p y) = vsub x y) by (intros; la_ring).
  rewrite D, <- mvec_vsub, norm_SO3, D, <- mvec_vsub, norm_SO3, D, <- mvec_vsub, norm_SO3 by assumption.
  replace (vsub (vadd a (mvec R3 (mvec R4 (mvec R5 (vadd b w))))) (vadd a' (mvec R3 (mvec R4 (mvec R5 (vadd b' w))))))
    with (vadd (vsub a a') (mvec R3 (mvec R4 (mvec R5 (vsub b b'))))).
  2:{ rewrite !mvec_vadd, !mvec_vsub. generalize (mvec R3 (mvec R4 (mvec R5 b))), (mvec R3 (mvec R4 (mvec R5 b'))), (mvec R3 (mvec R4 (mvec R5 w))). intros. la_ring. }
  eapply Rle_trans; [apply norm_triangle|]. rewrite !norm_SO3 by assumption. rewrite (norm_vsub_sym a a'), (norm_vsub_sym b b'). lra.
Qed.

Lemma two_cons {X Y} (P : X -> Y -> Prop) x y l m : Forall2 P (x :: l) (y :: m) -> P x y /\ Forall2 P l m.
Proof. intros H. inversion H; auto. Qed.
Lemma correct_len (A : arith) i j k (H P P' : list (v3 (num A))) : g_correct A i j k H P = Ok P' -> length P' = length P.
Proof.
  unfold g_correct. intros E. apply bind_inv in E. destruct E as (Pi & _ & E). destruct (g_vzerob A Pi); [injection E as <-; reflexivity|].
  apply bind_inv in E. destruct E as (Hj & _ & E). apply bind_inv in E. destruct E as ([] & _ & E). apply bind_inv in E. destruct E as (Pk & _ & E).
  injection E as <-. rewrite !FactsIkMut.set_nth_length. reflexivity.
Qed.
(** Whatever the arithmetic: six joint values each, all of them out of the subproblems and the normaliser. *)
Theorem C108_six : forall A nasin nrem argsort (rf : grobot A) posef lastf sols x, length (grH rf) = 6%nat -> length (grP rf) = 7%nat ->
  g_robot6_invkin A nasin nrem argsort rf posef lastf = Ok sols -> In x sols -> length x = 6%nat.
Proof.
  intros A nasin nrem argsort rf posef lastf sols x LH LP E I. unfold g_robot6_invkin in E. cbv zeta in E. apply bind_inv in E. destruct E as (P' & EP & E).
  assert (LP' : length P' = 7%nat).
  { unfold g_correct_P in EP. apply bind_inv in EP. destruct EP as (P1 & E1 & E2). apply correct_len in E1. apply correct_len in E2. congruence. }
  destruct (grH rf) as [|H0 [|H1 [|H2 [|H3 [|H4 [|H5 [|]]]]]]] eqn:EH; try discriminate LH.
  destruct P' as [|P0 [|P1 [|P2 [|P3 [|P4 [|P5 [|P6 [|]]]]]]]]; try discriminate LP'.
  destruct (solve_trace _ _ _ _ H0 H1 H2 H3 H4 H5 P0 P1 P2 P3 P4 P5 P6 _ _ _ _ x EH E I) as (q1 & q2 & q3 & q4 & q5 & q6 & t1 & t2 & t3 & t4 & t5 & t6 & Q3 & Q45 & -> & _).
  reflexivity.
Qed.

(** Limits: every joint value that comes back is a finite number strictly inside them. *)
Theorem C108_limits : forall L (f : b64 -> b64) bdot argsort (rf : grobot (b64_arith L bdot)) posef lastf sols x (ls us : list b64) i (l u y : b64), length (grH rf) = 6%nat -> length (grP rf) = 7%nat ->
  grlower rf = Some ls -> grupper rf = Some us -> nth_error ls i = Some l -> nth_error us i = Some u -> bfin l -> bfin u ->
  g_robot6_invkin (b64_arith L bdot) f b_rem argsort rf posef lastf = Ok sols -> In x sols -> nth_error x i = Some y -> bfin y /\ bval l < bval y < bval u.
Proof.
  intros L f bdot argsort rf posef lastf sols x ls us i l u y LH LP EL EU NL NU FL FU E I NY. unfold g_robot6_invkin in E. cbv zeta in E. apply bind_inv in E. destruct E as (P' & EP & E).
  assert (LP' : length P' = 7%nat).
  { unfold g_correct_P in EP. apply bind_inv in EP. destruct EP as (P1 & E1 & E2). apply correct_len in E1. apply correct_len in E2. congruence. }
  destruct (grH rf) as [|H0 [|H1 [|H2 [|H3 [|H4 [|H5 [|]]]]]]] eqn:EH; try discriminate LH.
  destruct P' as [|P0 [|P1 [|P2 [|P3 [|P4 [|P5 [|P6 [|]]]]]]]]; try discriminate LP'.
  pose proof (solve_trace _ _ _ _ H0 H1 H2 H3 H4 H5 P0 P1 P2 P3 P4 P5 P6 _ _ _ _ x EH E I) as TR. rewrite EL, EU in TR.
  destruct TR as (q1 & q2 & q3 & q4 & q5 & q6 & t1 & t2 & t3 & t4 & t5 & t6 & Q3 & Q45 & -> & (_ & N1) & (_ & _ & N3) & (_ & N2) & (_ & _ & N4 & N5') & (_ & N6)).
  match type of N1 with g_normalize _ _ ?z0 _ _ = _ => assert (G : forall j t q, g_normalize (b64_arith L bdot) b_rem z0 j t = Ok (Some q) -> nth_error [q1; q2; q3; q4; q5; q6] i = Some q -> j = i -> bfin q /\ bval l < bval q < bval u) end.
  { intros j t q N _ ->. exact (PropNorm.C87_binary64 L bdot (@GN (b64_arith L bdot) (Some (ls, us)) lastf) ls us i l u t q eq_refl NL NU FL FU N). }
  do 6 (destruct i as [|i]; [injection NY as <-; first [eapply G; [exact N1 | reflexivity | reflexivity] | eapply G; [exact N2 | reflexivity | reflexivity] | eapply G; [exact N3 | reflexivity | reflexivity] | eapply G; [exact N4 | reflexivity | reflexivity] | eapply G; [exact N5' | reflexivity | reflexivity] | eapply G; [exact N6 | reflexivity | reflexivity]]|]).
  destruct i; discriminate NY.
Qed.

(** Every vector of sane joint values that comes back places every point of the tool near where the pose puts it. *)
Theorem C108_reaches : forall L (f : b64 -> b64) bdot argsort rf r posef pose lastf sols x1 x2 x3 x4 x5 x6 M rho h0 h1 h2 h3 h4 h5 p0 p1 p2 p3 p4 p5 p6 R06 v,
  In bdot b_dots -> libm_ok L (bpow radix2 (-52)) -> libm_total L -> libm_arc_ok L (bpow radix2 (-50)) -> libm_angle_ok L (bpow radix2 (-50)) -> libm_asin_ok f (bpow radix2 (-50)) ->
  opw r h0 h1 h2 h3 h4 h5 p0 p1 p2 p3 p4 p5 p6 -> wf_aux r -> stored_robot L bdot M rf r -> stored_pose L bdot M posef pose ->
  bpow radix2 (-150) <= M <= bpow radix2 150 -> 1002 / 1000 * extent r pose <= M -> 1 <= rho <= 1000 ->
  g_robot6_invkin (b64_arith L bdot) f b_rem argsort rf posef lastf = Ok sols -> In [x1; x2; x3; x4; x5; x6] sols -> Forall sane [x1; x2; x3; x4; x5; x6] ->
  M <= rho * norm (perp ey p2) -> M <= rho * norm (perp ey (vadd p3 p4)) -> M <= rho * norm (perp ey (vadd p2 (rotate h2 (bval x3) (vadd p3 p4)))) ->
  wrist_of r pose (vadd p6 p5) R06 v -> 1 <= rho * norm (perp (rotate h0 (bval x1) (rotate h1 (bval x2) (rotate h2 (bval x3) h3))) (mvec R06 h5)) ->
  forall u, norm (vsub (robot_point r (map bval [x1; x2; x3; x4; x5; x6]) u) (act pose u)) <= sqrt_eps + rho * bpow radix2 (-22) * (M + norm u).
Proof.
  intros L f bdot argsort rf r posef pose lastf sols x1 x2 x3 x4 x5 x6 M rho h0 h1 h2 h3 h4 h5 p0 p1 p2 p3 p4 p5 p6 R06 v HD HL HT HA HG HF O W SR SP RM EX RR E I SN LA LB OFF WO OFW u.
  assert (MP : 0 < M) by (apply (rg_pos 150); exact RM). pose proof uu_pos as UP. pose proof uu_val' as UV.
  pose proof (sr_H _ _ _ _ _ SR) as SH. pose proof (sr_P _ _ _ _ _ SR) as SPP.
  pose proof (opw_H _ _ _ _ _ _ _ _ _ _ _ _ _ _ O) as OH. pose proof (opw_P _ _ _ _ _ _ _ _ _ _ _ _ _ _ O) as OP.
  rewrite OH in SH. rewrite OP in SPP.
  destruct (grH rf) as [|H0 [|H1 [|H2 [|H3 [|H4 [|H5 [|]]]]]]] eqn:EH;
    try (exfalso; repeat (apply two_cons in SH; destruct SH as [_ SH]); inversion SH; fail).
  destruct (grP rf) as [|P0 [|P1 [|P2 [|P3 [|P4 [|P5 [|P6 [|]]]]]]]] eqn:EP;
    try (exfalso; repeat (apply two_cons in SPP; destruct SPP as [_ SPP]); inversion SPP; fail).
  apply two_cons in SH. destruct SH as [S0 SH]. apply two_cons in SH. destruct SH as [S1 SH]. apply two_cons in SH. destruct SH as [S2 SH].
  apply two_cons in SH. destruct SH as [S3 SH]. apply two_cons in SH. destruct SH as [S4 SH]. apply two_cons in SH. destruct SH as [S5 _].
  apply two_cons in SPP. destruct SPP as [T0 SPP]. apply two_cons in SPP. destruct SPP as [T1 SPP]. apply two_cons in SPP. destruct SPP as [T2 SPP].
  apply two_cons in SPP. destruct SPP as [T3 SPP]. apply two_cons in SPP. destruct SPP as [T4 SPP]. apply two_cons in SPP. destruct SPP as [T5 SPP]. apply two_cons in SPP. destruct SPP as [T6 _].
  unfold g_robot6_invkin in E. cbv zeta in E. rewrite EH, EP in E. apply bind_inv in E. destruct E as (P' & EC & E).
  destruct (correct_form L bdot _ _ _ _ _ _ _ _ _ _ _ _ _ _ EC) as (P3' & P4' & P5' & P6' & -> & C3 & C6).
  unfold extent in EX. rewrite OP in EX. cbn [fold_right] in EX.
  pose proof (norm_nonneg p0) as N0. pose proof (norm_nonneg p1) as N1. pose proof (norm_nonneg p2) as N2. pose proof (norm_nonneg p3) as N3. pose proof (norm_nonneg p4) as N4. pose proof (norm_nonneg p5) as N5'. pose proof (norm_nonneg p6) as N6.
  pose proof (norm_nonneg (tp pose)) as NT. pose proof (shift_nonneg (tool_transform r)) as NS1. pose proof (shift_nonneg (rflange r)) as NS2. pose proof (shift_nonneg (rbase r)) as NS3.
  assert (RM' : rg 380 M) by (apply (rg_weak 150); [lia | exact RM]).
  destruct (link_ok L bdot HD HL M P3 P4 p3 p4 P3' RM' T3 T4 ltac:(lra) C3) as (F3 & E3 & B3).
  destruct (link_ok L bdot HD HL M P6 P5 p6 p5 P6' RM' T6 T5 ltac:(lra) C6) as (F6 & E6 & B6).
  destruct (unapply_ok L bdot HD HL M rf r posef pose RM' SR SP ltac:(lra)) as (MQ & (FT & ET & BT) & BT').
  pose proof (solve_trace _ _ _ _ H0 H1 H2 H3 H4 H5 P0 P1 P2 P3' P4' P5' P6' _ _ _ _ _ EH E I) as TR. match type of TR with trace _ _ _ _ _ _ _ _ _ _ _ _ _ _ _ _ ?z0 _ => set (z := z0) in TR end.
  set (Q := tR (unapply_aux r pose)) in *. set (tT := tp (unapply_aux r pose)) in *.
  destruct (FactsIkOk.wrist_unique r pose _ R06 v W WO) as [_ WQ]. fold Q in WQ. rewrite WQ in OFW.
  assert (VF : forall X q, stored3 M X q -> SpecRound.vfin (A := b64_arith L bdot) bfin X /\ SpecRound.vval (A := b64_arith L bdot) bval X = q).
  { intros X q (A0 & A1 & A2 & Eq & _). split; [repeat split; assumption | symmetry; exact Eq]. }
  destruct (VF _ _ T0) as [F0 V0]. destruct (VF _ _ T1) as [F1 V1]. destruct (VF _ _ T2) as [F2 V2]. clear VF.
  set (q3 := SpecRound.vval (A := b64_arith L bdot) bval P3') in *. set (q6 := SpecRound.vval (A := b64_arith L bdot) bval P6') in *.
  set (qT := SpecRound.vval (A := b64_arith L bdot) bval (gp (g_unapply_aux (b64_arith L bdot) rf posef))) in *.
  assert (UM : 0 < uu * M) by (apply Rmult_lt_0_compat; lra).
  assert (UM' : uu * M <= 12 / 100000000000000000 * M) by (apply Rmult_le_compat_r; lra).
  pose proof (norm_triangle p3 p4) as N34. pose proof (norm_triangle p6 p5) as N65.
  assert (NB : forall a b e, norm (vsub a b) <= e -> norm a <= norm b + e).
  { intros a b e He. replace a with (vadd b (vsub a b)) by la_ring. eapply Rle_trans; [apply norm_triangle|]. lra. }
  pose proof (NB _ _ _ E3) as G3. pose proof (NB _ _ _ E6) as G6. pose proof (NB _ _ _ ET) as GT'.
  assert (RU : forall a b, unit3 ey -> norm (vsub a b) <= 2 * (uu * M) -> M <= rho * norm (perp ey b) -> M <= 1001 / 1000 * rho * norm (perp ey a)).
  { intros a b UE D K. pose proof (perp_step ey b a UE) as PS.
    assert (rho * norm (perp ey b) <= rho * (norm (perp ey a) + 2 * (uu * M))) by (apply Rmult_le_compat_l; lra).
    assert (rho * (2 * (uu * M)) <= 1000 * (2 * (uu * M))) by (apply Rmult_le_compat_r; lra). lra. }
  assert (UE : unit3 ey) by (unfold unit3, norm2, dot, ey; cbn; ring).
  assert (U0 : unit3 h0) by apply S0. assert (U1 : unit3 h1) by apply S1. assert (U2 : unit3 h2) by apply S2.
  assert (U3 : unit3 h3) by apply S3. assert (U4 : unit3 h4) by apply S4. assert (U5 : unit3 h5) by apply S5.
  assert (LB' : M <= 1001 / 1000 * rho * norm (perp ey q3)) by (apply (RU _ (vadd p3 p4)); assumption).
  assert (LA' : M <= 1001 / 1000 * rho * norm (perp ey p2)).
  { apply (RU _ p2); try assumption. rewrite vsub_self, norm_vzero. lra. }
  assert (OFF' : M <= 1001 / 1000 * rho * norm (perp ey (vadd p2 (rotate h2 (bval x3) q3)))).
  { apply (RU _ (vadd p2 (rotate h2 (bval x3) (vadd p3 p4)))); try assumption. rewrite <- !rot_rotate by assumption.
    replace (vsub (vadd p2 (mvec (rot h2 (bval x3)) q3)) (vadd p2 (mvec (rot h2 (bval x3)) (vadd p3 p4)))) with (mvec (rot h2 (bval x3)) (vsub q3 (vadd p3 p4))) by (rewrite mvec_vsub; la_ring).
    rewrite norm_SO3 by (apply rot_SO3; assumption). exact E3. }
  assert (OFW' : 1 <= 1001 / 1000 * rho * norm (perp (rotate h0 (bval x1) (rotate h1 (bval x2) (rotate h2 (bval x3) h3))) (mvec Q h5))).
  { assert (0 <= rho * norm (perp (rotate h0 (bval x1) (rotate h1 (bval x2) (rotate h2 (bval x3) h3))) (mvec Q h5))) by lra. lra. }
  assert (HA' : libm_arc_ok L (8 * uu)) by (rewrite <- b50; exact HA).
  assert (K := core L bdot f HD HL HT HA' HG HF H0 H1 H2 H3 H4 H5 P0 P1 P2 P3' P6' _ _ h0 h1 h2 h3 h4 h5 Q M (1001 / 1000 * rho) S0 S1 S2 S3 S4 S5 MQ F0 F1 F2 F3 F6 FT RM).
  rewrite V0, V1, V2 in K. fold q3 q6 qT in K.
  specialize (K ltac:(lra) ltac:(lra) (opw_h1 _ _ _ _ _ _ _ _ _ _ _ _ _ _ O) (opw_h2 _ _ _ _ _ _ _ _ _ _ _ _ _ _ O) (opw_p0 _ _ _ _ _ _ _ _ _ _ _ _ _ _ O) (opw_p0y _ _ _ _ _ _ _ _ _ _ _ _ _ _ O)
    (opw_34 _ _ _ _ _ _ _ _ _ _ _ _ _ _ O) (opw_35 _ _ _ _ _ _ _ _ _ _ _ _ _ _ O) LA' LB' z x1 x2 x3 x4 x5 x6 TR SN OFF' OFW' (point6 r u)).
  cbn [map]. rewrite (FactsRobot6.opw_point _ _ _ _ _ _ _ _ _ _ _ _ _ _ _ _ _ _ _ _ _ O). cbv zeta. fold (point6 r u). set (w := point6 r u) in *.
  rewrite (FactsRobot6.pose_split r pose u W), FactsRobot6.act_opt_dist by apply (wf_base r W). fold Q tT w.
  pose proof (point6_far r u W) as PF. fold w in PF. rewrite <- !rot_rotate in K by assumption.
  assert (CS := chain_step (rot h0 (bval x1)) (rot h1 (bval x2)) (rot h2 (bval x3)) (rot h3 (bval x4)) (rot h4 (bval x5)) (rot h5 (bval x6)) p0 p1 p2 (vadd p3 p4) q3 (vadd p6 p5) q6 w _ _
     (rot_SO3 _ _ U0) (rot_SO3 _ _ U1) (rot_SO3 _ _ U2) (rot_SO3 _ _ U3) (rot_SO3 _ _ U4) (rot_SO3 _ _ U5) E3 E6).
  set (X := vadd p0 _) in CS at 1. fold X.
  match type of K with norm (vsub ?y _) <= _ => set (Y := y) in * end.
  replace (vsub X (vadd (mvec Q w) tT)) with (vadd (vsub X Y) (vadd (vsub Y (vadd qT (mvec Q w))) (vsub qT tT))) by (generalize X Y (mvec Q w); intros; la_ring).
  eapply Rle_trans; [apply norm_triangle|]. pose proof (norm_triangle (vsub Y (vadd qT (mvec Q w))) (vsub qT tT)) as TT.
  assert (B22 : bpow radix2 (-22) = 2147483648 * uu) by (rewrite uu_val'; cbn; lra). rewrite B22.
  assert (KB : (542800000 * M + 1220000000 * (norm q6 + norm w)) * uu * (1001 / 1000 * rho) <= (1763000000 * M + 1220000000 * norm u) * uu * (1001 / 1000 * rho)).
  { apply Rmult_le_compat_r; [lra|]. apply Rmult_le_compat_r; lra. }
  assert (RU1 : 4000 * (uu * M) <= 4000 * (uu * M) * rho) by (rewrite <- (Rmult_1_r (4000 * (uu * M))) at 1; apply Rmult_le_compat_l; lra).
  pose proof (norm_nonneg u) as NU. assert (P1' : 0 <= uu * norm u * rho) by (apply Rmult_le_pos; [apply Rmult_le_pos|]; lra).
  assert (P2' : 0 <= uu * M * rho) by (apply Rmult_le_pos; lra).
  lra.
Qed.
Print Assumptions C108_reaches.

(* ---- a run: a math library that is exact to the last bit where the program asks, and correctly rounded elsewhere ---- *)
Definition b_quarter : b64 := b_div b_pi (b_lit 4 1).
Definition b_cosh : b64 := b_lit 4967757600021511 81129638414606681695789005144064.
Definition pin_libm : libm :=
  Libm (fun x => if is_num x b_zero then b_zero else if is_num x b_half then b_ofZ 1 else m_sin arc_libm x)
       (fun x => if is_num x b_zero then b_ofZ 1 else if is_num x b_half then b_cosh else m_cos arc_libm x)
       (fun x => if is_num x b_zero then b_half else m_acos arc_libm x)
       (fun y x => if (is_num y b_zero && b_lt x b_zero)%bool then b_pi else if (is_num x b_zero && b_lt b_zero y)%bool then b_half else
                   if (is_num y x && b_lt b_zero x)%bool then b_quarter else m_atan2 arc_libm y x).
Definition pin_asin (x : b64) : b64 := if is_num x b_zero then b_zero else arc_asin x.
Lemma quarter_val : bval b_quarter = bval b_pi / 4. Proof. vm_compute. lra. Qed.
Lemma b52' : bpow radix2 (-52) = 2 * uu. Proof. rewrite uu_val'. cbn. lra. Qed.
Lemma pin_ok : libm_ok pin_libm (bpow radix2 (-52)).
Proof.
  pose proof b_pi_err as PE. pose proof uu_small as US. pose proof uu_pos as UP.
  set (z := (PI - bval b_pi) / 2). assert (Z0 : 0 < z <= uu) by (unfold z; lra). assert (HZ : bval b_half = PI / 2 - z) by (rewrite half_val; unfold z; field).
  split; intros x; cbn [m_sin m_cos pin_libm];
  (destruct (is_num x b_zero) eqn:Z; [apply is_num_val in Z; [|reflexivity]; destruct Z as [Fx Vx]; change (bval b_zero) with 0 in Vx
   | destruct (is_num x b_half) eqn:T; [apply is_num_val in T; [|reflexivity]; destruct T as [Fx Vx] | apply arc_sincos_ok]]);
  intros _; (split; [exact Fx|]); rewrite Vx.
  - change (bval b_zero) with 0. rewrite sin_0, Rminus_0_r, Rabs_R0. apply bpow_ge_0.
  - rewrite HZ, bval_int_1, sin_shift. pose proof (one_minus_cos z) as OC. pose proof (COS_bound z) as CB. rewrite Rabs_right by lra.
    assert (z * z <= uu * uu) by (apply Rmult_le_compat; lra). rewrite b52'.
    assert (uu * uu <= 1 * uu) by (apply Rmult_le_compat_r; lra). lra.
  - rewrite cos_0, bval_int_1. unfold Rminus. rewrite Rplus_opp_r, Rabs_R0. apply bpow_ge_0.
  - rewrite HZ, cos_shift. assert (CV : 0 <= bval b_cosh <= uu) by (rewrite uu_val'; vm_compute; lra).
    pose proof (sin_lt_x z ltac:(lra)) as SL. pose proof (sin_ge_0 z ltac:(lra) ltac:(pose proof PI2_3_2; lra)) as SG. rewrite b52'. apply Rabs_le. lra.
Qed.
Lemma pin_total : libm_total pin_libm.
Proof.
  intros x F. cbn [m_sin m_cos pin_libm]. destruct (is_num x b_zero); [split; reflexivity|]. destruct (is_num x b_half); [split; reflexivity|]. exact (arc_total x F).
Qed.
Lemma pin_atan2 y x : bfin y -> bfin x -> bfin (m_atan2 pin_libm y x) /\ Rabs (bval (m_atan2 pin_libm y x) - atan2 (bval y) (bval x)) <= 8 * uu.
Proof.
  intros Fy Fx. pose proof b_pi_err as PE. pose proof uu_pos as UP. pose proof PI_RGT_0 as PP. cbn [m_atan2 pin_libm].
  destruct (is_num y b_zero && b_lt x b_zero)%bool eqn:B1.
  { apply andb_true_iff in B1. destruct B1 as [Y0 X0]. apply is_num_val in Y0; [|reflexivity]. destruct Y0 as [_ Y0]. change (bval b_zero) with 0 in Y0. apply (proj1 (PropNorm.b_lt_val x b_zero Fx eq_refl)) in X0. change (bval b_zero) with 0 in X0.
    split; [reflexivity|]. rewrite Y0. replace 0 with (- bval x * sin PI) by (rewrite sin_PI; ring). replace (bval x) with (- bval x * cos PI) at 2 by (rewrite cos_PI; ring).
    rewrite atan2_polar by lra. apply Rabs_le. lra. }
  destruct (is_num x b_zero && b_lt b_zero y)%bool eqn:B2.
  { apply andb_true_iff in B2. destruct B2 as [X0 Y0]. apply is_num_val in X0; [|reflexivity]. destruct X0 as [_ X0]. change (bval b_zero) with 0 in X0. apply (proj1 (PropNorm.b_lt_val b_zero y eq_refl Fy)) in Y0. change (bval b_zero) with 0 in Y0.
    split; [reflexivity|]. rewrite X0. replace 0 with (bval y * cos (PI / 2)) by (rewrite cos_PI2; ring). replace (bval y) with (bval y * sin (PI / 2)) at 1 by (rewrite sin_PI2; ring).
    rewrite atan2_polar, half_val by lra. apply Rabs_le. lra. }
  destruct (is_num y x && b_lt b_zero x)%bool eqn:B3.
  { apply andb_true_iff in B3. destruct B3 as [E X0]. apply is_num_val in E; [|exact Fx]. destruct E as [_ E]. apply (proj1 (PropNorm.b_lt_val b_zero x eq_refl Fx)) in X0. change (bval b_zero) with 0 in X0.
    split; [reflexivity|]. rewrite E. assert (S2 : 0 < sqrt 2) by (apply sqrt_lt_R0; lra).
    replace (atan2 (bval x) (bval x)) with (atan2 (bval x * sqrt 2 * sin (PI / 4)) (bval x * sqrt 2 * cos (PI / 4))) by (rewrite sin_PI4, cos_PI4; f_equal; field; lra).
    rewrite atan2_polar, quarter_val by (try lra; apply Rmult_lt_0_compat; lra). apply Rabs_le. lra. }
  cbn [m_atan2 arc_libm]. unfold bfin in Fy, Fx. rewrite Fy, Fx. cbn [andb]. apply near_err. pose proof (atan2_range (bval y) (bval x)). pose proof pi_hi. apply Rabs_le. lra.
Qed.
Lemma pin_arc : libm_arc_ok pin_libm (bpow radix2 (-50)).
Proof.
  split; [intros y x Fy Fx _ _ _; rewrite b50; exact (pin_atan2 y x Fy Fx)|]. intros x F B. cbn [m_acos pin_libm].
  destruct (is_num x b_zero) eqn:Z; [|exact (proj2 arc_libm_ok x F B)]. apply is_num_val in Z; [|reflexivity]. destruct Z as [_ V]. rewrite V. change (bval b_zero) with 0.
  split; [reflexivity|]. rewrite acos_0, half_val, b50. pose proof b_pi_err as PE. pose proof uu_pos as UP. apply Rabs_le. lra.
Qed.
Lemma pin_angle : libm_angle_ok pin_libm (bpow radix2 (-50)).
Proof.
  intros y x Fy Fx _. destruct (pin_atan2 y x Fy Fx) as [F E]. pose proof (atan2_range (bval y) (bval x)) as RG. split; [exact F|]. exists (atan2 (bval y) (bval x)). split; [lra|]. rewrite b50. split; [exact E|].
  split; [symmetry; apply atan2_cos | symmetry; apply atan2_sin].
Qed.
Lemma pin_asin_ok : libm_asin_ok pin_asin (bpow radix2 (-50)).
Proof.
  destruct arc_asin_ok as [A1 A2]. split; intros x; unfold pin_asin; destruct (is_num x b_zero) eqn:Z; auto; apply is_num_val in Z; try reflexivity; destruct Z as [F V]; rewrite V; change (bval b_zero) with 0.
  - intros _ _. split; [reflexivity|]. rewrite asin_0, Rminus_0_r, Rabs_R0. apply bpow_ge_0.
  - intros _. split; [exact F|]. rewrite Rabs_R0. lra.
Qed.
(** the robot: link vectors along two axes, a tool, limits of about a quarter turn *)
Definition pin_P : list vec3 := [ez; V3 1 0 1; V3 0 0 3; V3 2 0 0; V3 2 0 0; ex; ez].
Definition pin_r : robot := Rb [ez; ey; ey; ex; ey; ex] pin_P [Rotary; Rotary; Rotary; Rotary; Rotary; Rotary] (Some [-1; -1; -1; -1; -2; -1]) (Some [1; 1; 1; 1; 2; 1]) None None None
  (Some I3) (Some ez) None None None None None.
Definition pin_R06 : mat3 := M3 0 0 1 0 1 0 (-1) 0 0.
Definition pin_goal : transform := Tf pin_R06 (V3 7 0 4) None None.
Section Pin.
Context (bdot : list b64 -> list b64 -> b64).
Notation A := (b64_arith pin_libm bdot).
Definition pin_rf : grobot A :=
  GRb A [b_int3 0 0 1; b_int3 0 1 0; b_int3 0 1 0; b_int3 1 0 0; b_int3 0 1 0; b_int3 1 0 0]
    [b_int3 0 0 1; b_int3 1 0 1; b_int3 0 0 3; b_int3 2 0 0; b_int3 2 0 0; b_int3 1 0 0; b_int3 0 0 1]
    [Rotary; Rotary; Rotary; Rotary; Rotary; Rotary] (Some (map b_ofZ [-1;-1;-1;-1;-2;-1]%Z)) (Some (map b_ofZ [1;1;1;1;2;1]%Z))
    (Some (@GT A b_eye (b_int3 0 0 1))) None None.
Definition pin_pose : gtf A := @GT A (ModelFloat.W3 (b_int3 0 0 1) (b_int3 0 1 0) (b_int3 (-1) 0 0)) (b_int3 7 0 4).
Definition pin_run : out (list (list b64)) := g_robot6_invkin A pin_asin b_rem (fun _ => []) pin_rf pin_pose None.
Definition pin_test (o : out (list (list b64))) : bool :=
  match o with Ok [[a; b; c; d; e; f]] => (is_num a b_zero && is_num b b_zero && is_num c b_zero && is_num d b_zero && is_num e b_half && is_num f b_zero)%bool | _ => false end.
End Pin.
Lemma pin_runs bdot : In bdot b_dots -> pin_test (pin_run bdot) = true.
Proof. intros H. cbn [In b_dots] in H. repeat (destruct H as [<- | H]; [vm_compute; reflexivity|]). contradiction. Qed.
Lemma pin_int z : (-8 <= z <= 8)%Z -> bfin (b_ofZ z) /\ bval (b_ofZ z) = IZR z.
Proof.
  intros H. assert (C : (z = -8 \/ z = -7 \/ z = -6 \/ z = -5 \/ z = -4 \/ z = -3 \/ z = -2 \/ z = -1 \/ z = 0 \/ z = 1 \/ z = 2 \/ z = 3 \/ z = 4 \/ z = 5 \/ z = 6 \/ z = 7 \/ z = 8)%Z) by lia.
  repeat (destruct C as [-> | C]; [split; [reflexivity | vm_compute; lra]|]). subst z. split; [reflexivity | vm_compute; lra].
Qed.
Lemma pin_stored M x y z v : 14 <= M -> (-8 <= x <= 8)%Z -> (-8 <= y <= 8)%Z -> (-8 <= z <= 8)%Z -> v = V3 (IZR x) (IZR y) (IZR z) -> stored3 M (b_int3 x y z) v.
Proof.
  intros HM Hx Hy Hz ->. destruct (pin_int x Hx) as [F0 V0]. destruct (pin_int y Hy) as [F1 V1]. destruct (pin_int z Hz) as [F2 V2].
  unfold stored3, b_int3. cbn [w0 w1 w2]. rewrite V0, V1, V2. repeat (split; [assumption || reflexivity|]).
  apply norm_le_sq; [lra|]. unfold LinAlg.dot. cbn [vx vy vz].
  assert (Q : forall t, (-8 <= t <= 8)%Z -> IZR t * IZR t <= 64). { intros t Ht. assert (-8 <= IZR t <= 8) by (split; apply (IZR_le _ _); lia). nra. }
  pose proof (Q x Hx). pose proof (Q y Hy). pose proof (Q z Hz). assert (14 * 14 <= M * M) by (apply Rmult_le_compat; lra). lra.
Qed.
Lemma pin_axis x y z k : (-8 <= x <= 8)%Z -> (-8 <= y <= 8)%Z -> (-8 <= z <= 8)%Z -> k = V3 (IZR x) (IZR y) (IZR z) -> unit3 k -> stored_axis3 (b_int3 x y z) k.
Proof.
  intros Hx Hy Hz -> U. destruct (pin_int x Hx) as [F0 V0]. destruct (pin_int y Hy) as [F1 V1]. destruct (pin_int z Hz) as [F2 V2].
  pose proof (bpow_ge_0 radix2 (-50)). unfold stored_axis3, b_int3. cbn [w0 w1 w2 vx vy vz]. rewrite V0, V1, V2, !Rminus_diag_eq, Rabs_R0 by reflexivity. repeat (split; [assumption|]). assumption.
Qed.
Lemma pin_near z : (-8 <= z <= 8)%Z -> SpecArc2.near (bpow radix2 (-46)) (b_ofZ z) (IZR z).
Proof. intros H. destruct (pin_int z H) as [F V]. split; [exact F|]. rewrite V, Rminus_diag_eq, Rabs_R0 by reflexivity. apply bpow_ge_0. Qed.
Lemma pin_SO3 : is_SO3 pin_R06.
Proof. split; unfold pin_R06; la_ring. Qed.
Lemma pin_robot M bdot : 14 <= M -> stored_robot pin_libm bdot M (pin_rf bdot) pin_r.
Proof.
  intros HM.
  assert (UX : unit3 ex) by (unfold unit3, norm2, LinAlg.dot, ex; cbn; ring). assert (UY : unit3 ey) by (unfold unit3, norm2, LinAlg.dot, ey; cbn; ring). assert (UZ : unit3 ez) by (unfold unit3, norm2, LinAlg.dot, ez; cbn; ring).
  constructor.
  - repeat (constructor; [apply pin_axis; (lia || reflexivity || assumption)|]). constructor.
  - repeat (constructor; [apply pin_stored; (exact HM || lia || reflexivity)|]). constructor.
  - cbn. split; [apply SO3_I|]. split; [|apply pin_stored; (exact HM || lia || reflexivity)]. repeat split; apply (pin_near 0 ltac:(lia)) || apply (pin_near 1 ltac:(lia)).
  - exact I.
  - exact I.
Qed.
Lemma pin_posed M bdot : 14 <= M -> stored_pose pin_libm bdot M (pin_pose bdot) pin_goal.
Proof.
  intros HM.
  split; [exact pin_SO3|]. split; [|apply pin_stored; (exact HM || lia || reflexivity)].
  repeat split; apply (pin_near 0 ltac:(lia)) || apply (pin_near 1 ltac:(lia)) || apply (pin_near (-1) ltac:(lia)).
Qed.
Lemma pin_opw : opw pin_r ez ey ey ex ey ex ez (V3 1 0 1) (V3 0 0 3) (V3 2 0 0) (V3 2 0 0) ex ez /\ wf_aux pin_r.
Proof.
  split; constructor; try reflexivity; try (left; reflexivity); try (unfold on_axis, perp; la_ring); try la_ring.
  - constructor; try reflexivity; [|intros l [= <-]; reflexivity | intros l [= <-]; reflexivity]. cbn. repeat (constructor; [unfold unit3, norm2, LinAlg.dot, ex, ey, ez; cbn; ring|]). constructor.
  - split; discriminate.
  - intros Q [= <-]. apply SO3_I.
Qed.
Lemma pin_extent : 1002 / 1000 * extent pin_r pin_goal <= 24.
Proof.
  assert (B : forall v n, 0 <= n -> LinAlg.dot v v <= n * n -> norm v <= n) by (intros v n; apply norm_le_sq).
  unfold extent. cbn [pin_r pin_P rP fold_right tool_transform rRtool rptool rflange rbase shift_of tp pin_goal].
  assert (norm ez <= 1) by (apply B; unfold LinAlg.dot, ez; cbn; lra). assert (norm ex <= 1) by (apply B; unfold LinAlg.dot, ex; cbn; lra).
  assert (norm (V3 1 0 1) <= 2) by (apply B; unfold LinAlg.dot; cbn; lra). assert (norm (V3 0 0 3) <= 3) by (apply B; unfold LinAlg.dot; cbn; lra).
  assert (norm (V3 2 0 0) <= 2) by (apply B; unfold LinAlg.dot; cbn; lra). assert (norm (V3 7 0 4) <= 9) by (apply B; unfold LinAlg.dot; cbn; lra). lra.
Qed.
(** The pose is reached with all joints straight but the fifth, bent by a quarter turn. *)
Example C108_ex : forall bdot, In bdot b_dots -> exists x1 x2 x3 x4 x5 x6,
  g_robot6_invkin (b64_arith pin_libm bdot) pin_asin b_rem (fun _ => []) (pin_rf bdot) (pin_pose bdot) None = Ok [[x1; x2; x3; x4; x5; x6]] /\
  map bval [x1; x2; x3; x4; x5; x6] = [0; 0; 0; 0; bval b_pi / 2; 0] /\ Forall sane [x1; x2; x3; x4; x5; x6] /\
  (forall u, norm (vsub (robot_point pin_r (map bval [x1; x2; x3; x4; x5; x6]) u) (act pin_goal u)) <= sqrt_eps + 11 * bpow radix2 (-22) * (32 + norm u)) /\
  forall y, In y [x1; x2; x3; x4; x5; x6] -> bfin y /\ -2 < bval y < 2.
Proof.
  intros bdot HD. pose proof (pin_runs bdot HD) as RT. unfold pin_run in RT.
  destruct (g_robot6_invkin _ _ _ _ _ _ _) as [[|[|x1 [|x2 [|x3 [|x4 [|x5 [|x6 [|]]]]]]] [|]]|] eqn:E; try discriminate RT. exists x1, x2, x3, x4, x5, x6. split; [reflexivity|].
  cbn [pin_test] in RT. rewrite !andb_true_iff in RT. destruct RT as (((((Z1 & Z2) & Z3) & Z4) & Z5) & Z6).
  apply is_num_val in Z1; [|reflexivity]. apply is_num_val in Z2; [|reflexivity]. apply is_num_val in Z3; [|reflexivity]. apply is_num_val in Z4; [|reflexivity]. apply is_num_val in Z5; [|reflexivity]. apply is_num_val in Z6; [|reflexivity].
  destruct Z1 as [F1 V1]. destruct Z2 as [F2 V2]. destruct Z3 as [F3 V3']. destruct Z4 as [F4 V4]. destruct Z5 as [F5 V5]. destruct Z6 as [F6 V6].
  change (bval b_zero) with 0 in *. rewrite half_val in V5. cbn [map]. pose proof b_pi_err as PE. pose proof PI_4 as P4. pose proof PI2_3_2 as P3. pose proof uu_small as US.
  assert (SN : Forall sane [x1; x2; x3; x4; x5; x6]).
  { repeat (constructor; [split; [assumption|]; (rewrite V1 || rewrite V2 || rewrite V3' || rewrite V4 || rewrite V5 || rewrite V6); apply Rabs_le; lra|]). constructor. }
  split; [rewrite V1, V2, V3', V4, V5, V6; reflexivity|]. split; [exact SN|]. split.
  - destruct pin_opw as [O W]. assert (R0 : forall k v, rotate k 0 v = v) by (intros; unfold rotate; rewrite sin_0, cos_0; la_ring).
    assert (LE : forall v n, 0 <= n -> n * n <= LinAlg.dot v v -> n <= norm v) by (intros v n P Q; unfold norm, norm2; rewrite <- (sqrt_square n P); apply sqrt_le_1_alt; exact Q).
    apply (C108_reaches pin_libm pin_asin bdot (fun _ => []) (pin_rf bdot) pin_r (pin_pose bdot) pin_goal None [[x1; x2; x3; x4; x5; x6]] x1 x2 x3 x4 x5 x6 32 11 ez ey ey ex ey ex ez (V3 1 0 1) (V3 0 0 3) (V3 2 0 0) (V3 2 0 0) ex ez pin_R06 (V3 5 0 5)
      HD pin_ok pin_total pin_arc pin_angle pin_asin_ok O W (pin_robot 32 bdot ltac:(lra)) (pin_posed 32 bdot ltac:(lra))); try assumption.
    + change 32 with (bpow radix2 5). split; apply bpow_le; lia.
    + pose proof pin_extent. lra.
    + lra.
    + left; reflexivity.
    + assert (3 <= norm (perp ey (V3 0 0 3))) by (apply LE; [lra|]; unfold perp, ey, vsub, vscale, LinAlg.dot; cbn [vx vy vz]; lra). lra.
    + assert (3 <= norm (perp ey (vadd (V3 2 0 0) (V3 2 0 0)))) by (apply LE; [lra|]; unfold perp, ey, vsub, vadd, vscale, LinAlg.dot; cbn [vx vy vz]; lra). lra.
    + rewrite V3', R0. assert (3 <= norm (perp ey (vadd (V3 0 0 3) (vadd (V3 2 0 0) (V3 2 0 0))))) by (apply LE; [lra|]; unfold perp, ey, vsub, vadd, vscale, LinAlg.dot; cbn [vx vy vz]; lra). lra.
    + intros [x y z]. unfold act, point6, act_tool, pin_goal, pin_R06, ez, ex. cbn. la_ring.
    + rewrite V1, V2, V3', !R0. assert (1 <= norm (perp ex (mvec pin_R06 ex))) by (apply LE; [lra|]; unfold perp, ex, pin_R06, mvec, vsub, vscale, LinAlg.dot; cbn; lra). lra.
  - intros y IY. apply In_nth_error in IY. destruct IY as [i NY].
    assert (LI : (i < 6)%nat) by (apply (nth_error_Some [x1; x2; x3; x4; x5; x6]); rewrite NY; discriminate).
    assert (G : forall a b, nth_error [-1;-1;-1;-1;-2;-1]%Z i = Some a -> nth_error [1;1;1;1;2;1]%Z i = Some b -> (-8 <= a <= 8)%Z -> (-8 <= b <= 8)%Z -> bfin y /\ IZR a < bval y < IZR b).
    { intros a b Ha Hb Ra Rb. destruct (pin_int a Ra) as [Fa Va]. destruct (pin_int b Rb) as [Fb Vb]. rewrite <- Va, <- Vb.
      apply (C108_limits pin_libm pin_asin bdot (fun _ => []) (pin_rf bdot) (pin_pose bdot) None [[x1; x2; x3; x4; x5; x6]] [x1; x2; x3; x4; x5; x6] (map b_ofZ [-1;-1;-1;-1;-2;-1]%Z) (map b_ofZ [1;1;1;1;2;1]%Z) i); try assumption; try reflexivity.
      - rewrite nth_error_map, Ha. reflexivity. 
      - rewrite nth_error_map, Hb. reflexivity.
      - left; reflexivity. }
    do 6 (destruct i as [|i]; [destruct (G _ _ eq_refl eq_refl ltac:(lia) ltac:(lia)) as [FG BG]; split; [exact FG | lra]|]). lia.
Qed.
Print Assumptions C108_six.
Print Assumptions C108_limits.
Print Assumptions C108_ex.
