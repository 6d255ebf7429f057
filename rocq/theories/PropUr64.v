(** Property C109: ur_invkin in binary64. *)
From Coq Require Import Reals ZArith List Bool Lra Lia Psatz.
From Flocq Require Import Core.Core IEEE754.BinarySingleNaN.
From Verif Require Import LinAlg RealAux Py FactsReal FactsLinAlg ModelRot SpecRot FactsRot FactsNorm SpecSub FactsSub ModelFloat ModelFloat2 ModelFloat3 ModelFloat6 ModelFloat9 ModelFloat10 ModelFloat11 ModelFloat12 SpecRound FactsRound FactsB64 FactsExact FactsTrack SpecArc SpecSub4 SpecRpy FactsIk64 FactsPath64 FactsJoint64 FactsArm64 FactsWrist64 ModelTransform ModelRobot ModelKin SpecKin SpecInvkin FactsKin SpecArc2 SpecRobot64 FactsRobot64 FactsUr64 ModelInvkin.
From Verif Require FactsRobot6 FactsUr FactsIkGeo FactsIkOk PropNorm.
From Verif Require Import PropFloat PropPi PropAngle PropRpy PropSub4 PropR2rot PropMove PropIterEnd PropRobot64.
Import ListNotations.
Open Scope R_scope.

(** Whatever the arithmetic: six joint values each. *)
Theorem C109_six : forall A nasin nrem argsort (rf : grobot A) posef lastf sols x, length (grH rf) = 6%nat -> length (grP rf) = 7%nat ->
  g_ur_invkin A nasin nrem argsort rf posef lastf = Ok sols -> In x sols -> length x = 6%nat.
Proof.
  intros A nasin nrem argsort rf posef lastf sols x LH LP E I.
  destruct (grH rf) as [|H0 [|H1 [|H2 [|H3 [|H4 [|H5 [|]]]]]]] eqn:EH; try discriminate LH.
  destruct (grP rf) as [|P0 [|P1 [|P2 [|P3 [|P4 [|P5 [|P6 [|]]]]]]]] eqn:EP; try discriminate LP.
  destruct (ur_solve_trace _ _ _ _ _ _ _ _ _ _ _ _ _ _ _ _ _ _ _ _ _ _ EH EP E I) as (q1 & q2 & q3 & q4 & q5 & q6 & t1 & t2 & t3 & q24 & t6 & Q & Q3 & -> & _).
  reflexivity.
Qed.

(** Limits: every joint value but the fifth is a finite number strictly inside them. *)
Theorem C109_limits : forall L (f : b64 -> b64) bdot argsort (rf : grobot (b64_arith L bdot)) posef lastf sols x (ls us : list b64) i (l u y : b64), length (grH rf) = 6%nat -> length (grP rf) = 7%nat ->
  grlower rf = Some ls -> grupper rf = Some us -> nth_error ls i = Some l -> nth_error us i = Some u -> bfin l -> bfin u -> i <> 4%nat ->
  g_ur_invkin (b64_arith L bdot) f b_rem argsort rf posef lastf = Ok sols -> In x sols -> nth_error x i = Some y -> bfin y /\ bval l < bval y < bval u.
Proof.
  intros L f bdot argsort rf posef lastf sols x ls us i l u y LH LP EL EU NL NU FL FU N4' E I NY.
  destruct (grH rf) as [|H0 [|H1 [|H2 [|H3 [|H4 [|H5 [|]]]]]]] eqn:EH; try discriminate LH.
  destruct (grP rf) as [|P0 [|P1 [|P2 [|P3 [|P4 [|P5 [|P6 [|]]]]]]]] eqn:EP; try discriminate LP.
  pose proof (ur_solve_trace _ _ _ _ _ _ _ _ _ _ _ _ _ _ _ _ _ _ _ _ _ _ EH EP E I) as TR. rewrite EL, EU in TR.
  destruct TR as (q1 & q2 & q3 & q4 & q5 & q6 & t1 & t2 & t3 & q24 & t6 & Q & Q3 & -> & (_ & N1) & _ & (_ & _ & N3) & (_ & N2) & N4 & (_ & N6)).
  match type of N1 with g_normalize _ _ ?z0 _ _ = _ => assert (G : forall j t q, g_normalize (b64_arith L bdot) b_rem z0 j t = Ok (Some q) -> j = i -> bfin q /\ bval l < bval q < bval u) end.
  { intros j t q N ->. exact (PropNorm.C87_binary64 L bdot (@GN (b64_arith L bdot) (Some (ls, us)) lastf) ls us i l u t q eq_refl NL NU FL FU N). }
  do 6 (destruct i as [|i]; [try congruence; injection NY as <-; first [eapply G; [exact N1 | reflexivity] | eapply G; [exact N2 | reflexivity] | eapply G; [exact N3 | reflexivity] | eapply G; [exact N4 | reflexivity] | eapply G; [exact N6 | reflexivity]]|]).
  destruct i; discriminate NY.
Qed.

Lemma ur_chain r h p0 p1 p2 p3 p4 p5 p6 q1 q2 q3 q4 q5 q6 x : ur r h p0 p1 p2 p3 p4 p5 p6 ->
  robot_point r [q1; q2; q3; q4; q5; q6] x =
  act_opt (rbase r) (vadd p0 (rotate ez q1 (vadd p1 (rotate h q2 (vadd p2 (rotate h q3 (vadd p3 (rotate h q4 (vadd p4 (rotate (vneg ez) q5 (rotate h q6 (vadd (vadd p6 p5) (point6 r x))))))))))))).
Proof.
  intros U. unfold robot_point. fold (point6 r x).
  rewrite (ur_types _ _ _ _ _ _ _ _ _ U), (ur_H _ _ _ _ _ _ _ _ _ U), (ur_P _ _ _ _ _ _ _ _ _ U).
  pose proof (FactsRobot6.ey_line _ (ur_h _ _ _ _ _ _ _ _ _ U)) as Uh.
  cbn [chain hd tl joint_motion]. pose proof (FactsRobot6.on_axis_rot h q6 p5 (ur_p5 _ _ _ _ _ _ _ _ _ U)) as A5.
  replace (rotate h q6 (vadd (vadd p6 p5) (point6 r x))) with (vadd p5 (rotate h q6 (vadd p6 (point6 r x)))); [reflexivity|].
  rewrite <- !rot_rotate by exact Uh. rewrite !mvec_vadd, A5. generalize (mvec (rot h q6) p6), (mvec (rot h q6) (point6 r x)). intros; la_ring.
Qed.
Lemma ur_step R0 R1 R2 R3 R4 R5 p0 p1 p2 p3 p4 b b' w e : is_SO3 R0 -> is_SO3 R1 -> is_SO3 R2 -> is_SO3 R3 -> is_SO3 R4 -> is_SO3 R5 -> norm (vsub b' b) <= e ->
  norm (vsub (vadd p0 (mvec R0 (vadd p1 (mvec R1 (vadd p2 (mvec R2 (vadd p3 (mvec R3 (vadd p4 (mvec R4 (mvec R5 (vadd b w))))))))))))
             (vadd p0 (mvec R0 (vadd p1 (mvec R1 (vadd p2 (mvec R2 (vadd p3 (mvec R3 (vadd p4 (mvec R4 (mvec R5 (vadd b' w))))))))))))) <= e.
Proof.
  intros S0 S1 S2 S3 S4 S5 E.
  assert (D : forall p x y, vsub (vadd p x) (vadd p y) = vsub x y) by (intros; la_ring).
  assert (D' : vsub (vadd b w) (vadd b' w) = vsub b b') by la_ring.
  rewrite D, <- mvec_vsub, norm_SO3, D, <- mvec_vsub, norm_SO3, D, <- mvec_vsub, norm_SO3, D, <- mvec_vsub, norm_SO3, D, <- mvec_vsub, norm_SO3, <- mvec_vsub, norm_SO3, D' by assumption.
  rewrite norm_vsub_sym. exact E.
Qed.

(** Every vector of sane joint values that comes back places every point of the tool near where the pose puts it. *)
Theorem C109_reaches : forall L (f : b64 -> b64) bdot argsort rf r posef pose lastf sols x1 x2 x3 x4 x5 x6 M rho h p0 p1 p2 p3 p4 p5 p6 R06 v,
  In bdot b_dots -> libm_ok L (bpow radix2 (-52)) -> libm_total L -> libm_arc_ok L (bpow radix2 (-50)) -> libm_angle_ok L (bpow radix2 (-50)) -> libm_asin_ok f (bpow radix2 (-50)) ->
  ur r h p0 p1 p2 p3 p4 p5 p6 -> wf_aux r -> stored_robot L bdot M rf r -> stored_pose L bdot M posef pose ->
  bpow radix2 (-150) <= M <= bpow radix2 150 -> 1002 / 1000 * extent r pose <= M -> 1 <= rho <= 1000 ->
  g_ur_invkin (b64_arith L bdot) f b_rem argsort rf posef lastf = Ok sols -> In [x1; x2; x3; x4; x5; x6] sols -> Forall sane [x1; x2; x3; x4; x5; x6] ->
  M <= rho * norm (perp ey p2) -> M <= rho * norm (perp ey p3) -> M <= rho * norm (perp ey (vadd p2 (rotate h (bval x3) p3))) ->
  wrist_of r pose (vadd p6 p5) R06 v -> 1 <= rho * norm (perp (rotate ez (bval x1) h) (mvec R06 h)) ->
  forall u, norm (vsub (robot_point r (map bval [x1; x2; x3; x4; x5; x6]) u) (act pose u)) <= sqrt_eps + rho * bpow radix2 (-22) * (M + norm u).
Proof.
  intros L f bdot argsort rf r posef pose lastf sols x1 x2 x3 x4 x5 x6 M rho h p0 p1 p2 p3 p4 p5 p6 R06 v HD HL HT HA HG HF O W SR SP RM EX RR E I SN LA LB OFF WO OFW u.
  assert (MP : 0 < M) by (apply (rg_pos 150); exact RM). pose proof uu_pos as UP. pose proof uu_val' as UV.
  pose proof (sr_H _ _ _ _ _ SR) as SH. pose proof (sr_P _ _ _ _ _ SR) as SPP.
  pose proof (ur_H _ _ _ _ _ _ _ _ _ O) as OH. pose proof (ur_P _ _ _ _ _ _ _ _ _ O) as OP.
  rewrite OH in SH. rewrite OP in SPP.
  destruct (grH rf) as [|H0 [|H1 [|H2 [|H3 [|H4 [|H5 [|]]]]]]] eqn:EH;
    try (exfalso; repeat (apply two_cons in SH; destruct SH as [_ SH]); inversion SH; fail).
  destruct (grP rf) as [|P0 [|P1 [|P2 [|P3 [|P4 [|P5 [|P6 [|]]]]]]]] eqn:EP;
    try (exfalso; repeat (apply two_cons in SPP; destruct SPP as [_ SPP]); inversion SPP; fail).
  apply two_cons in SH. destruct SH as [S0 SH]. apply two_cons in SH. destruct SH as [S1 SH]. apply two_cons in SH. destruct SH as [S2 SH].
  apply two_cons in SH. destruct SH as [S3 SH]. apply two_cons in SH. destruct SH as [S4 SH]. apply two_cons in SH. destruct SH as [S5 _].
  apply two_cons in SPP. destruct SPP as [T0 SPP]. apply two_cons in SPP. destruct SPP as [T1 SPP]. apply two_cons in SPP. destruct SPP as [T2 SPP].
  apply two_cons in SPP. destruct SPP as [T3 SPP]. apply two_cons in SPP. destruct SPP as [T4 SPP]. apply two_cons in SPP. destruct SPP as [T5 SPP]. apply two_cons in SPP. destruct SPP as [T6 _].
  unfold extent in EX. rewrite OP in EX. cbn [fold_right] in EX.
  pose proof (norm_nonneg p0) as N0. pose proof (norm_nonneg p1) as N1. pose proof (norm_nonneg p2) as N2. pose proof (norm_nonneg p3) as N3. pose proof (norm_nonneg p4) as N4. pose proof (norm_nonneg p5) as N5'. pose proof (norm_nonneg p6) as N6.
  pose proof (norm_nonneg (tp pose)) as NT. pose proof (shift_nonneg (tool_transform r)) as NS1. pose proof (shift_nonneg (rflange r)) as NS2. pose proof (shift_nonneg (rbase r)) as NS3.
  assert (RM' : rg 380 M) by (apply (rg_weak 150); [lia | exact RM]).
  destruct (link_ok L bdot HD HL M P6 P5 p6 p5 _ RM' T6 T5 ltac:(lra) (or_intror eq_refl)) as (F6 & E6 & B6).
  destruct (unapply_ok L bdot HD HL M rf r posef pose RM' SR SP ltac:(lra)) as (MQ & (FT & ET & BT) & BT').
  pose proof (ur_solve_trace _ _ _ _ H0 H1 H2 H3 H4 H5 P0 P1 P2 P3 P4 P5 P6 _ _ _ _ _ EH EP E I) as TR. match type of TR with ur_trace _ _ _ _ _ _ _ _ _ _ _ _ _ _ _ _ _ ?z0 _ => set (z := z0) in TR end.
  set (Q := tR (unapply_aux r pose)) in *. set (tT := tp (unapply_aux r pose)) in *.
  destruct (FactsIkOk.wrist_unique r pose _ R06 v W WO) as [_ WQ]. fold Q in WQ. rewrite WQ in OFW.
  assert (VF : forall X q, stored3 M X q -> SpecRound.vfin (A := b64_arith L bdot) bfin X /\ SpecRound.vval (A := b64_arith L bdot) bval X = q).
  { intros X q (A0 & A1 & A2 & Eq & _). split; [repeat split; assumption | symmetry; exact Eq]. }
  destruct (VF _ _ T0) as [F0 V0]. destruct (VF _ _ T1) as [F1 V1]. destruct (VF _ _ T2) as [F2 V2]. destruct (VF _ _ T3) as [F3 V3']. destruct (VF _ _ T4) as [F4 V4]. clear VF.
  set (q6 := SpecRound.vval (A := b64_arith L bdot) bval (g_vadd (b64_arith L bdot) P6 P5)) in *.
  set (qT := SpecRound.vval (A := b64_arith L bdot) bval (gp (g_unapply_aux (b64_arith L bdot) rf posef))) in *.
  assert (UM : 0 < uu * M) by (apply Rmult_lt_0_compat; lra).
  assert (UM' : uu * M <= 12 / 100000000000000000 * M) by (apply Rmult_le_compat_r; lra).
  pose proof (norm_triangle p6 p5) as N65.
  assert (NB : forall a b e, norm (vsub a b) <= e -> norm a <= norm b + e).
  { intros a b e He. replace a with (vadd b (vsub a b)) by la_ring. eapply Rle_trans; [apply norm_triangle|]. lra. }
  pose proof (NB _ _ _ E6) as G6. pose proof (NB _ _ _ ET) as GT'.
  assert (U0 : unit3 ez) by apply S0. assert (U1 : unit3 h) by apply S1. assert (U4 : unit3 (vneg ez)) by apply S4.
  assert (HA' : libm_arc_ok L (8 * uu)) by (rewrite <- b50; exact HA).
  assert (K := ur_core L bdot f HD HL HT HA' HG HF H0 H1 H2 H3 H4 H5 P0 P1 P2 P3 P4 (g_vadd (b64_arith L bdot) P6 P5) _ _ ez h (vneg ez) Q M rho S0 S1 S2 S3 S4 S5 MQ F0 F1 F2 F3 F4 F6 FT RM).
  rewrite V0, V1, V2, V3', V4 in K. fold q6 qT in K.
  specialize (K ltac:(lra) ltac:(lra) (ur_h _ _ _ _ _ _ _ _ _ O) (ur_p0 _ _ _ _ _ _ _ _ _ O) (FactsUr.ez_p0y _ (ur_p0 _ _ _ _ _ _ _ _ _ O))
    (FactsUr.h_ez _ (ur_h _ _ _ _ _ _ _ _ _ O)) LA LB z x1 x2 x3 x4 x5 x6 TR SN OFF OFW (point6 r u)).
  cbn [map]. rewrite (ur_chain _ _ _ _ _ _ _ _ _ _ _ _ _ _ _ _ O). set (w := point6 r u) in *.
  rewrite (FactsRobot6.pose_split r pose u W), FactsRobot6.act_opt_dist by apply (wf_base r W). fold Q tT w.
  pose proof (point6_far r u W) as PF. fold w in PF. rewrite <- !rot_rotate in K by assumption. rewrite <- !rot_rotate by assumption.
  assert (CS := ur_step (rot ez (bval x1)) (rot h (bval x2)) (rot h (bval x3)) (rot h (bval x4)) (rot (vneg ez) (bval x5)) (rot h (bval x6)) p0 p1 p2 p3 p4 (vadd p6 p5) q6 w _
     (rot_SO3 _ _ U0) (rot_SO3 _ _ U1) (rot_SO3 _ _ U1) (rot_SO3 _ _ U1) (rot_SO3 _ _ U4) (rot_SO3 _ _ U1) E6).
  set (X := vadd p0 _) in CS at 1. fold X.
  match type of K with norm (vsub ?y _) <= _ => set (Y := y) in * end.
  replace (vsub X (vadd (mvec Q w) tT)) with (vadd (vsub X Y) (vadd (vsub Y (vadd qT (mvec Q w))) (vsub qT tT))) by (generalize X Y (mvec Q w); intros; la_ring).
  eapply Rle_trans; [apply norm_triangle|]. pose proof (norm_triangle (vsub Y (vadd qT (mvec Q w))) (vsub qT tT)) as TT.
  assert (B22 : bpow radix2 (-22) = 2147483648 * uu) by (rewrite uu_val'; cbn; lra). rewrite B22.
  assert (KB : (542822000 * M + 1220022000 * (norm q6 + norm w)) * uu * rho <= (1763000000 * M + 1220022000 * norm u) * uu * rho).
  { apply Rmult_le_compat_r; [lra|]. apply Rmult_le_compat_r; lra. }
  assert (RU1 : 4000 * (uu * M) <= 4000 * (uu * M) * rho) by (rewrite <- (Rmult_1_r (4000 * (uu * M))) at 1; apply Rmult_le_compat_l; lra).
  pose proof (norm_nonneg u) as NU. assert (P1' : 0 <= uu * norm u * rho) by (apply Rmult_le_pos; [apply Rmult_le_pos|]; lra).
  assert (P2' : 0 <= uu * M * rho) by (apply Rmult_le_pos; lra).
  lra.
Qed.
Print Assumptions C109_reaches.

(* ---- a run, with a math library exact to the last bit where the program asks ---- *)
Definition b_mpi : b64 := Bopp b_pi.
Definition pinu_libm : libm :=
  Libm (fun x => if is_num x b_mpi then b_zero else m_sin pin_libm x) (fun x => if is_num x b_mpi then b_ofZ (-1) else m_cos pin_libm x) (m_acos pin_libm) (m_atan2 pin_libm).
(** the robot: shoulder and elbow offsets that cancel, links of length 3 and 4, a tool; the fifth joint is not checked *)
Definition pinu_P : list vec3 := [ez; ey; V3 3 0 0; V3 0 0 4; V3 0 (-1) 0; ey; ex].
Definition pinu_r : robot := Rb [ez; ey; ey; ey; vneg ez; ey] pinu_P [Rotary; Rotary; Rotary; Rotary; Rotary; Rotary] (Some [-1; -1; -1; -1; -1; -1]) (Some [1; 1; 1; 1; 1; 1]) None None None
  (Some I3) (Some ez) None None None None None.
Definition pinu_R06 : mat3 := M3 0 1 0 (-1) 0 0 0 0 1.
Definition pinu_goal : transform := Tf pinu_R06 (V3 4 (-1) 6) None None.
Section Pin.
Context (bdot : list b64 -> list b64 -> b64).
Notation A := (b64_arith pinu_libm bdot).
Definition pinu_rf : grobot A :=
  GRb A [b_int3 0 0 1; b_int3 0 1 0; b_int3 0 1 0; b_int3 0 1 0; b_int3 0 0 (-1); b_int3 0 1 0]
    [b_int3 0 0 1; b_int3 0 1 0; b_int3 3 0 0; b_int3 0 0 4; b_int3 0 (-1) 0; b_int3 0 1 0; b_int3 1 0 0]
    [Rotary; Rotary; Rotary; Rotary; Rotary; Rotary] (Some (map b_ofZ [-1;-1;-1;-1;-1;-1]%Z)) (Some (map b_ofZ [1;1;1;1;1;1]%Z))
    (Some (@GT A b_eye (b_int3 0 0 1))) None None.
Definition pinu_pose : gtf A := @GT A (ModelFloat.W3 (b_int3 0 1 0) (b_int3 (-1) 0 0) (b_int3 0 0 1)) (b_int3 4 (-1) 6).
Definition pinu_run : out (list (list b64)) := g_ur_invkin A pin_asin b_rem (fun _ => []) pinu_rf pinu_pose None.
End Pin.
Lemma pinu_runs bdot : In bdot b_dots -> pin_test (pinu_run bdot) = true.
Proof. intros H. cbn [In b_dots] in H. repeat (destruct H as [<- | H]; [vm_compute; reflexivity|]). contradiction. Qed.
Lemma mpi_val : bfin b_mpi /\ bval b_mpi = - bval b_pi.
Proof. split; [reflexivity|]. vm_compute. lra. Qed.
Lemma pinu_ok : libm_ok pinu_libm (bpow radix2 (-52)).
Proof.
  pose proof b_pi_err as PE. pose proof uu_small as US. pose proof uu_pos as UP. destruct mpi_val as [FM VM].
  set (z := PI - bval b_pi). assert (Z0 : 0 < z <= 2 * uu) by (unfold z; lra). assert (HZ : bval b_mpi = - (PI - z)) by (rewrite VM; unfold z; ring).
  destruct pin_ok as [K1 K2]. split; intros x; cbn [m_sin m_cos pinu_libm]; (destruct (is_num x b_mpi) eqn:T; [apply is_num_val in T; [|exact FM]; destruct T as [Fx Vx] | auto]);
  intros _; (split; [exact Fx|]); rewrite Vx, HZ.
  - change (bval b_zero) with 0. replace (PI - z) with (- z + PI) by ring; rewrite sin_neg, neg_sin, sin_neg. pose proof (sin_lt_x z ltac:(lra)) as SL. pose proof (sin_ge_0 z ltac:(lra) ltac:(pose proof PI2_3_2; lra)) as SG. rewrite b52'. apply Rabs_le. lra.
  - rewrite cos_neg. replace (PI - z) with (- z + PI) by ring. rewrite neg_cos, cos_neg. destruct (pin_int (-1) ltac:(lia)) as [_ V]. rewrite V. pose proof (one_minus_cos z) as OC. pose proof (COS_bound z) as CB.
    assert (z * z <= 2 * uu * (2 * uu)) by (apply Rmult_le_compat; lra). rewrite b52'. assert (uu * uu <= 1 / 1000 * uu) by (apply Rmult_le_compat_r; lra). apply Rabs_le. lra.
Qed.
Lemma pinu_total : libm_total pinu_libm.
Proof. intros x F. cbn [m_sin m_cos pinu_libm]. destruct (is_num x b_mpi); [split; reflexivity|]. exact (pin_total x F). Qed.
Lemma pinu_SO3 : is_SO3 pinu_R06.
Proof. split; unfold pinu_R06; la_ring. Qed.
Lemma pinu_robot M bdot : 14 <= M -> stored_robot pinu_libm bdot M (pinu_rf bdot) pinu_r.
Proof.
  intros HM.
  assert (UY : unit3 ey) by (unfold unit3, norm2, LinAlg.dot, ey; cbn; ring). assert (UZ : unit3 ez) by (unfold unit3, norm2, LinAlg.dot, ez; cbn; ring). assert (UM : unit3 (vneg ez)) by (unfold unit3, norm2, LinAlg.dot, ez, vneg; cbn; ring).
  constructor.
  - repeat (constructor; [apply pin_axis; (lia || assumption || (unfold ey, ez, vneg; cbn [vx vy vz]; f_equal; ring))|]). constructor.
  - repeat (constructor; [apply pin_stored; (lra || lia || reflexivity)|]). constructor.
  - cbn. split; [apply SO3_I|]. split; [|apply pin_stored; (lra || lia || reflexivity)]. repeat split; apply (pin_near 0 ltac:(lia)) || apply (pin_near 1 ltac:(lia)).
  - exact I.
  - exact I.
Qed.
Lemma pinu_posed M bdot : 14 <= M -> stored_pose pinu_libm bdot M (pinu_pose bdot) pinu_goal.
Proof.
  intros HM.
  split; [exact pinu_SO3|]. split; [|apply pin_stored; (lra || lia || reflexivity)].
  repeat split; apply (pin_near 0 ltac:(lia)) || apply (pin_near 1 ltac:(lia)) || apply (pin_near (-1) ltac:(lia)).
Qed.
Lemma pinu_ur : ur pinu_r ey ez ey (V3 3 0 0) (V3 0 0 4) (V3 0 (-1) 0) ey ex /\ wf_aux pinu_r.
Proof.
  split; constructor; try reflexivity; try (left; reflexivity); try (unfold on_axis, perp; la_ring); try la_ring.
  - constructor; try reflexivity; [|intros l [= <-]; reflexivity | intros l [= <-]; reflexivity]. cbn. repeat (constructor; [unfold unit3, norm2, LinAlg.dot, ex, ey, ez, vneg; cbn; ring|]). constructor.
  - split; discriminate.
  - intros Q [= <-]. apply SO3_I.
Qed.
Lemma pinu_extent : 1002 / 1000 * extent pinu_r pinu_goal <= 22.
Proof.
  assert (B : forall v n, 0 <= n -> LinAlg.dot v v <= n * n -> norm v <= n) by (intros v n; apply norm_le_sq).
  unfold extent. cbn [pinu_r pinu_P rP fold_right tool_transform rRtool rptool rflange rbase shift_of tp pinu_goal].
  assert (norm ez <= 1) by (apply B; unfold LinAlg.dot, ez; cbn; lra). assert (norm ex <= 1) by (apply B; unfold LinAlg.dot, ex; cbn; lra). assert (norm ey <= 1) by (apply B; unfold LinAlg.dot, ey; cbn; lra).
  assert (norm (V3 3 0 0) <= 3) by (apply B; unfold LinAlg.dot; cbn; lra). assert (norm (V3 0 0 4) <= 4) by (apply B; unfold LinAlg.dot; cbn; lra).
  assert (norm (V3 0 (-1) 0) <= 1) by (apply B; unfold LinAlg.dot; cbn; lra). assert (norm (V3 4 (-1) 6) <= 8) by (apply B; unfold LinAlg.dot; cbn; lra). lra.
Qed.
(** The pose is reached with all joints straight but the fifth, bent by a quarter turn: outside its limits of -1 and 1. *)
Example C109_ex : forall bdot, In bdot b_dots -> exists x1 x2 x3 x4 x5 x6,
  g_ur_invkin (b64_arith pinu_libm bdot) pin_asin b_rem (fun _ => []) (pinu_rf bdot) (pinu_pose bdot) None = Ok [[x1; x2; x3; x4; x5; x6]] /\
  map bval [x1; x2; x3; x4; x5; x6] = [0; 0; 0; 0; bval b_pi / 2; 0] /\ Forall sane [x1; x2; x3; x4; x5; x6] /\
  (forall u, norm (vsub (robot_point pinu_r (map bval [x1; x2; x3; x4; x5; x6]) u) (act pinu_goal u)) <= sqrt_eps + 11 * bpow radix2 (-22) * (32 + norm u)) /\
  forall i y, i <> 4%nat -> nth_error [x1; x2; x3; x4; x5; x6] i = Some y -> bfin y /\ -1 < bval y < 1.
Proof.
  intros bdot HD. pose proof (pinu_runs bdot HD) as RT. unfold pinu_run in RT.
  destruct (g_ur_invkin _ _ _ _ _ _ _) as [[|[|x1 [|x2 [|x3 [|x4 [|x5 [|x6 [|]]]]]]] [|]]|] eqn:E; try discriminate RT. exists x1, x2, x3, x4, x5, x6. split; [reflexivity|].
  cbn [pin_test] in RT. rewrite !andb_true_iff in RT. destruct RT as (((((Z1 & Z2) & Z3) & Z4) & Z5) & Z6).
  apply is_num_val in Z1; [|reflexivity]. apply is_num_val in Z2; [|reflexivity]. apply is_num_val in Z3; [|reflexivity]. apply is_num_val in Z4; [|reflexivity]. apply is_num_val in Z5; [|reflexivity]. apply is_num_val in Z6; [|reflexivity].
  destruct Z1 as [F1 V1]. destruct Z2 as [F2 V2]. destruct Z3 as [F3 V3']. destruct Z4 as [F4 V4]. destruct Z5 as [F5 V5]. destruct Z6 as [F6 V6].
  change (bval b_zero) with 0 in *. rewrite half_val in V5. cbn [map]. pose proof b_pi_err as PE. pose proof PI_4 as P4. pose proof PI2_3_2 as P3. pose proof uu_small as US.
  assert (SN : Forall sane [x1; x2; x3; x4; x5; x6]).
  { repeat (constructor; [split; [assumption|]; (rewrite V1 || rewrite V2 || rewrite V3' || rewrite V4 || rewrite V5 || rewrite V6); apply Rabs_le; lra|]). constructor. }
  split; [rewrite V1, V2, V3', V4, V5, V6; reflexivity|]. split; [exact SN|]. split.
  - destruct pinu_ur as [O W]. assert (R0 : forall k v, rotate k 0 v = v) by (intros; unfold rotate; rewrite sin_0, cos_0; la_ring).
    assert (LE : forall v n, 0 <= n -> n * n <= LinAlg.dot v v -> n <= norm v) by (intros v n P Q; unfold norm, norm2; rewrite <- (sqrt_square n P); apply sqrt_le_1_alt; exact Q).
    apply (C109_reaches pinu_libm pin_asin bdot (fun _ => []) (pinu_rf bdot) pinu_r (pinu_pose bdot) pinu_goal None [[x1; x2; x3; x4; x5; x6]] x1 x2 x3 x4 x5 x6 32 11 ey ez ey (V3 3 0 0) (V3 0 0 4) (V3 0 (-1) 0) ey ex pinu_R06 (V3 3 0 5)
      HD pinu_ok pinu_total pin_arc pin_angle pin_asin_ok O W (pinu_robot 32 bdot ltac:(lra)) (pinu_posed 32 bdot ltac:(lra))); try assumption.
    + change 32 with (bpow radix2 5). split; apply bpow_le; lia.
    + pose proof pinu_extent. lra.
    + lra.
    + left; reflexivity.
    + assert (3 <= norm (perp ey (V3 3 0 0))) by (apply LE; [lra|]; unfold perp, ey, vsub, vscale, LinAlg.dot; cbn [vx vy vz]; lra). lra.
    + assert (3 <= norm (perp ey (V3 0 0 4))) by (apply LE; [lra|]; unfold perp, ey, vsub, vscale, LinAlg.dot; cbn [vx vy vz]; lra). lra.
    + rewrite V3', R0. assert (3 <= norm (perp ey (vadd (V3 3 0 0) (V3 0 0 4)))) by (apply LE; [lra|]; unfold perp, ey, vsub, vadd, vscale, LinAlg.dot; cbn [vx vy vz]; lra). lra.
    + intros [x y z]. unfold act, point6, act_tool, pinu_goal, pinu_R06, ez, ex, ey. cbn. la_ring.
    + rewrite V1, !R0. assert (1 <= norm (perp ey (mvec pinu_R06 ey))) by (apply LE; [lra|]; unfold perp, ey, pinu_R06, mvec, vsub, vscale, LinAlg.dot; cbn; lra). lra.
  - intros i y N4 NY.
    assert (LI : (i < 6)%nat) by (apply (nth_error_Some [x1; x2; x3; x4; x5; x6]); rewrite NY; discriminate).
    destruct (pin_int (-1) ltac:(lia)) as [Fa Va]. destruct (pin_int 1 ltac:(lia)) as [Fb Vb].
    assert (Ha : nth_error (map b_ofZ [-1;-1;-1;-1;-1;-1]%Z) i = Some (b_ofZ (-1))) by (do 6 (destruct i as [|i]; [reflexivity|]); lia).
    assert (Hb : nth_error (map b_ofZ [1;1;1;1;1;1]%Z) i = Some (b_ofZ 1)) by (do 6 (destruct i as [|i]; [reflexivity|]); lia).
    rewrite <- Va, <- Vb.
    apply (C109_limits pinu_libm pin_asin bdot (fun _ => []) (pinu_rf bdot) (pinu_pose bdot) None [[x1; x2; x3; x4; x5; x6]] [x1; x2; x3; x4; x5; x6] (map b_ofZ [-1;-1;-1;-1;-1;-1]%Z) (map b_ofZ [1;1;1;1;1;1]%Z) i); try assumption; try reflexivity. left; reflexivity.
Qed.
Print Assumptions C109_six.
Print Assumptions C109_limits.
Print Assumptions C109_ex.
(** So not every returned joint value lies inside the limits: the fifth joint of the run is above its upper limit of 1. *)
Theorem C109_fifth_refuted : forall bdot, In bdot b_dots -> exists x y,
  g_ur_invkin (b64_arith pinu_libm bdot) pin_asin b_rem (fun _ => []) (pinu_rf bdot) (pinu_pose bdot) None = Ok [x] /\
  grupper (pinu_rf bdot) = Some (map b_ofZ [1;1;1;1;1;1]%Z) /\ nth_error x 4 = Some y /\ bfin y /\ 1 < bval y.
Proof.
  intros bdot HD. destruct (C109_ex bdot HD) as (x1 & x2 & x3 & x4 & x5 & x6 & E & V & SN & _). exists [x1; x2; x3; x4; x5; x6], x5.
  split; [exact E|]. split; [reflexivity|]. split; [reflexivity|]. rewrite Forall_forall in SN. split; [apply SN; cbn; tauto|].
  apply (f_equal (fun l => nth 4 l 0)) in V. cbn [map nth] in V. rewrite V. pose proof b_pi_err. pose proof PI2_3_2. pose proof uu_small. lra.
Qed.
Print Assumptions C109_fifth_refuted.
