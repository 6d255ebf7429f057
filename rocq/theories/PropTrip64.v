(** Property C116: forward kinematics takes the output of inverse kinematics back to the pose in binary64. *)
From Coq Require Import Reals ZArith List Bool Lra Lia Psatz.
From Flocq Require Import Core.Core IEEE754.BinarySingleNaN.
From Verif Require Import LinAlg RealAux Py FactsReal FactsLinAlg ModelRot SpecRot FactsRot FactsNorm SpecSub FactsSub ModelFloat ModelFloat2 ModelFloat3 ModelFloat6 ModelFloat9 ModelFloat10 ModelFloat11 ModelFloat12 SpecRound FactsRound FactsB64 FactsExact FactsTrack SpecArc SpecSub4 SpecReach SpecRpy FactsRpy FactsIk64 FactsPath64 ModelTransform ModelRobot ModelKin SpecKin SpecInvkin FactsKin SpecArc2 SpecRobot64 FactsRobot64 FactsUr64 SpecFind SpecNear64 SpecTrip64 FactsTrip64.
From Verif Require PropNorm.
From Verif Require Import PropFloat PropPi PropIterEnd PropAngle PropRobot64 PropUr64 PropNear64.
Import ListNotations.
Open Scope R_scope.

(** six limits of up to 1024 rad below and above *)
Definition six_limits (lower upper : option (list b64)) : Prop :=
  exists ls us, lower = Some ls /\ upper = Some us /\ length ls = 6%nat /\ length us = 6%nat /\ Forall sane ls /\ Forall sane us.
Lemma six_limited lower upper : six_limits lower upper -> limited 6 lower upper.
Proof.
  intros (ls & us & EL & EU & NL & NU & SL & SU). exists ls, us. split; [exact EL|]. split; [exact EU|]. intros i LI.
  destruct (nth_error ls i) as [l|] eqn:El; [|apply nth_error_None in El; lia]. destruct (nth_error us i) as [u|] eqn:Eu; [|apply nth_error_None in Eu; lia].
  exists l, u. rewrite Forall_forall in SL, SU. repeat split; try (apply SL, (nth_error_In _ _ El)); apply SU, (nth_error_In _ _ Eu).
Qed.
Lemma b_le_of x y : bfin x -> bfin y -> bval x <= bval y -> b_le x y = true.
Proof.
  intros Fx Fy H. unfold b_le. rewrite Bcompare_correct by assumption. unfold bval in H. destruct (Rcompare_spec (B2R x) (B2R y)); [reflexivity|reflexivity|lra].
Qed.

(** forward kinematics returns, with numbers, and near the exact pose *)
Theorem C116_fwdkin : forall L bdot M (rf : grobot (b64_arith L bdot)) r xs ignore, In bdot b_dots -> libm_ok L (bpow radix2 (-52)) -> libm_total L ->
  wf_robot r -> rtype r = [Rotary; Rotary; Rotary; Rotary; Rotary; Rotary] -> grtype rf = rtype r -> stored_robot L bdot M rf r -> bpow radix2 (-380) <= M <= bpow radix2 380 ->
  fold_right (fun p s => norm p + s) 0 (rP r) + shift_of (tool_transform r) + shift_of (rflange r) + shift_of (rbase r) <= M ->
  length xs = 6%nat -> Forall bfin xs -> g_check_limits (b64_arith L bdot) rf xs ignore = Ok tt ->
  exists T, g_fwdkin (b64_arith L bdot) rf xs ignore = Ok T /\ whole T /\ forall u, norm (vsub (moved T u) (robot_point r (map bval xs) u)) <= bpow radix2 (-37) * (M + norm u).
Proof.
  intros L bdot M rf r xs ignore HD HL HT W TY TF SR RM SZ LX FX CL. rewrite TY in TF. destruct (fwd_ok L bdot HD HL HT M rf r xs ignore RM SR W TY TF LX FX SZ CL) as (T & E & WT & D).
  exists T. split; [exact E|]. split; [exact WT|]. intros u. eapply Rle_trans; [apply D|]. apply Rmult_le_compat_r; [pose proof (norm_nonneg u); pose proof (rg_pos 380 M RM); lra|]. rewrite uu_val'. cbn. lra.
Qed.

(** the output of robot6_sphericalwrist_invkin passes the limit check of fwdkin, whatever the math library *)
Theorem C116_accepts : forall L (f : b64 -> b64) bdot argsort (rf : grobot (b64_arith L bdot)) posef lastf sols x, length (grH rf) = 6%nat -> length (grP rf) = 7%nat -> six_limits (grlower rf) (grupper rf) ->
  g_robot6_invkin (b64_arith L bdot) f b_rem argsort rf posef lastf = Ok sols -> In x sols -> g_check_limits (b64_arith L bdot) rf x false = Ok tt.
Proof.
  intros L f bdot argsort rf posef lastf sols x LH LP (ls & us & EL & EU & NL & NU & SL & SU) E I.
  pose proof (C108_six _ _ _ _ _ _ _ _ _ LH LP E I) as LX.
  assert (G : forall i l u y, nth_error ls i = Some l -> nth_error us i = Some u -> nth_error x i = Some y -> b_le l y = true /\ b_le y u = true).
  { intros i l u y Hl Hu Hy. rewrite Forall_forall in SL, SU. destruct (SL l (nth_error_In _ _ Hl)) as [Fl _]. destruct (SU u (nth_error_In _ _ Hu)) as [Fu _].
    destruct (C108_limits L f bdot argsort rf posef lastf sols x ls us i l u y LH LP EL EU Hl Hu Fl Fu E I Hy) as [Fy B]. split; apply b_le_of; try assumption; lra. }
  unfold g_check_limits. rewrite EL, EU.
  destruct x as [|x0 [|x1 [|x2 [|x3 [|x4 [|x5 [|]]]]]]]; try discriminate LX. destruct ls as [|l0 [|l1 [|l2 [|l3 [|l4 [|l5 [|]]]]]]]; try discriminate NL. destruct us as [|u0 [|u1 [|u2 [|u3 [|u4 [|u5 [|]]]]]]]; try discriminate NU.
  destruct (G 0%nat _ _ _ eq_refl eq_refl eq_refl) as [A0 B0]. destruct (G 1%nat _ _ _ eq_refl eq_refl eq_refl) as [A1 B1]. destruct (G 2%nat _ _ _ eq_refl eq_refl eq_refl) as [A2 B2].
  destruct (G 3%nat _ _ _ eq_refl eq_refl eq_refl) as [A3 B3]. destruct (G 4%nat _ _ _ eq_refl eq_refl eq_refl) as [A4 B4]. destruct (G 5%nat _ _ _ eq_refl eq_refl eq_refl) as [A5 B5].
  unfold g_all. cbn [length Nat.eqb combine forallb fst snd nle b64_arith]. rewrite A0, A1, A2, A3, A4, A5. cbn [andb bind assert_]. rewrite B0, B1, B2, B3, B4, B5. reflexivity.
Qed.

Lemma close_enough L bdot M rho posef pose (T : gtf (b64_arith L bdot)) r xs : 0 < M -> 1 <= rho -> stored_pose L bdot M posef pose ->
  (forall u, norm (vsub (moved T u) (robot_point r xs u)) <= bpow radix2 (-37) * (M + norm u)) ->
  (forall u, norm (vsub (robot_point r xs u) (act pose u)) <= sqrt_eps + rho * bpow radix2 (-22) * (M + norm u)) ->
  forall u, norm (vsub (moved T u) (moved posef u)) <= sqrt_eps + rho * bpow radix2 (-21) * (M + norm u).
Proof.
  intros MP RR SP D1 D2 u. specialize (D1 u). specialize (D2 u). destruct (pose_mc L bdot M posef pose SP) as [(_ & EM & _) (_ & EV & _)].
  pose proof uu_pos as UP. pose proof (norm_nonneg u) as NU.
  assert (D3 : norm (vsub (act pose u) (moved posef u)) <= 512 * uu * norm u).
  { rewrite norm_vsub_sym. unfold moved, act. set (X := mval (A := b64_arith L bdot) bval (gR posef)) in *. set (y := vval (A := b64_arith L bdot) bval (gp posef)) in *.
    replace (vsub (vadd (mvec X u) y) (vadd (mvec (tR pose) u) (tp pose))) with (vadd (mvec (msub X (tR pose)) u) (vsub y (tp pose))) by la_ring.
    eapply Rle_trans; [apply norm_triangle|]. pose proof (norm_mvec_le (msub X (tR pose)) u) as NM.
    assert (frob (msub X (tR pose)) * norm u <= 512 * uu * norm u) by (apply Rmult_le_compat_r; lra). lra. }
  replace (vsub (moved T u) (moved posef u)) with (vadd (vsub (moved T u) (robot_point r xs u)) (vadd (vsub (robot_point r xs u) (act pose u)) (vsub (act pose u) (moved posef u)))).
  2:{ generalize (moved T u) (robot_point r xs u) (act pose u) (moved posef u). intros. unfold vadd, vsub. cbn [vx vy vz]. f_equal; ring. }
  eapply Rle_trans; [apply norm_triangle|]. pose proof (norm_triangle (vsub (robot_point r xs u) (act pose u)) (vsub (act pose u) (moved posef u))) as TR.
  assert (K : bpow radix2 (-37) * (M + norm u) + 512 * uu * norm u <= bpow radix2 (-22) * (M + norm u)) by (rewrite uu_val'; cbn; lra).
  assert (K2 : bpow radix2 (-22) * (M + norm u) <= rho * bpow radix2 (-22) * (M + norm u)) by (rewrite <- (Rmult_1_l (bpow radix2 (-22))) at 1; apply Rmult_le_compat_r; [lra|]; apply Rmult_le_compat_r; [apply bpow_ge_0|exact RR]).
  replace (rho * bpow radix2 (-21) * (M + norm u)) with (rho * bpow radix2 (-22) * (M + norm u) + rho * bpow radix2 (-22) * (M + norm u)) by (change (-21)%Z with (-22 + 1)%Z; rewrite bpow_plus; change (bpow radix2 1) with 2; ring).
  lra.
Qed.
Lemma sizes r pose M : 1002 / 1000 * extent r pose <= M -> 0 < M -> fold_right (fun p s => norm p + s) 0 (rP r) + shift_of (tool_transform r) + shift_of (rflange r) + shift_of (rbase r) <= M.
Proof. unfold extent. intros H MP. pose proof (norm_nonneg (tp pose)). lra. Qed.
Lemma wider M : bpow radix2 (-150) <= M <= bpow radix2 150 -> bpow radix2 (-380) <= M <= bpow radix2 380.
Proof. intros [H1 H2]. split; [eapply Rle_trans; [|exact H1]|eapply Rle_trans; [exact H2|]]; apply bpow_le; lia. Qed.
Lemma stored_lengths L bdot M (rf : grobot (b64_arith L bdot)) r : stored_robot L bdot M rf r -> length (grH rf) = length (rH r) /\ length (grP rf) = length (rP r).
Proof. intros S. split; [apply (two_six _ _ _ (sr_H _ _ _ _ _ S))|apply (two_six _ _ _ (sr_P _ _ _ _ _ S))]. Qed.

(** robot6_sphericalwrist_invkin and back, limits checked *)
Theorem C116_back : forall L (f : b64 -> b64) bdot argsort rf r posef pose lastf sols x1 x2 x3 x4 x5 x6 M rho h0 h1 h2 h3 h4 h5 p0 p1 p2 p3 p4 p5 p6 R06 v,
  In bdot b_dots -> libm_ok L (bpow radix2 (-52)) -> libm_total L -> libm_arc_ok L (bpow radix2 (-50)) -> libm_angle_ok L (bpow radix2 (-50)) -> libm_asin_ok f (bpow radix2 (-50)) ->
  opw r h0 h1 h2 h3 h4 h5 p0 p1 p2 p3 p4 p5 p6 -> wf_aux r -> stored_robot L bdot M rf r -> grtype rf = rtype r -> six_limits (grlower rf) (grupper rf) -> stored_pose L bdot M posef pose ->
  bpow radix2 (-150) <= M <= bpow radix2 150 -> 1002 / 1000 * extent r pose <= M -> 1 <= rho <= 1000 ->
  g_robot6_invkin (b64_arith L bdot) f b_rem argsort rf posef lastf = Ok sols -> In [x1; x2; x3; x4; x5; x6] sols ->
  M <= rho * norm (perp ey p2) -> M <= rho * norm (perp ey (vadd p3 p4)) -> M <= rho * norm (perp ey (vadd p2 (rotate h2 (bval x3) (vadd p3 p4)))) ->
  wrist_of r pose (vadd p6 p5) R06 v -> 1 <= rho * norm (perp (rotate h0 (bval x1) (rotate h1 (bval x2) (rotate h2 (bval x3) h3))) (mvec R06 h5)) ->
  exists T, g_fwdkin (b64_arith L bdot) rf [x1; x2; x3; x4; x5; x6] false = Ok T /\ whole T /\
    forall u, norm (vsub (moved T u) (moved posef u)) <= sqrt_eps + rho * bpow radix2 (-21) * (M + norm u).
Proof.
  intros L f bdot argsort rf r posef pose lastf sols x1 x2 x3 x4 x5 x6 M rho h0 h1 h2 h3 h4 h5 p0 p1 p2 p3 p4 p5 p6 R06 v HD HL HT HA HG HF O W SR TF SX SP RM EX RR E I LA LB OFF WO OFW.
  assert (MP : 0 < M) by (apply (rg_pos 150); exact RM).
  destruct (stored_lengths _ _ _ _ _ SR) as [LH LP]. rewrite (opw_H _ _ _ _ _ _ _ _ _ _ _ _ _ _ O) in LH. rewrite (opw_P _ _ _ _ _ _ _ _ _ _ _ _ _ _ O) in LP.
  destruct (robot6_sane L f bdot argsort rf posef lastf sols _ LH LP (six_limited _ _ SX) E I) as [_ SN].
  pose proof (C108_reaches L f bdot argsort rf r posef pose lastf sols x1 x2 x3 x4 x5 x6 M rho h0 h1 h2 h3 h4 h5 p0 p1 p2 p3 p4 p5 p6 R06 v HD HL HT HA HG HF O W SR SP RM EX RR E I SN LA LB OFF WO OFW) as RE.
  destruct (C116_fwdkin L bdot M rf r [x1; x2; x3; x4; x5; x6] false HD HL HT (opw_wf _ _ _ _ _ _ _ _ _ _ _ _ _ _ O) (opw_types _ _ _ _ _ _ _ _ _ _ _ _ _ _ O) TF SR (wider M RM) (sizes r pose M EX MP) eq_refl) as (T & ET & WT & D).
  - eapply Forall_impl; [|exact SN]. intros a Ha. apply Ha.
  - exact (C116_accepts L f bdot argsort rf posef lastf sols _ LH LP SX E I).
  - exists T. split; [exact ET|]. split; [exact WT|]. exact (close_enough L bdot M rho posef pose T r _ MP (proj1 RR) SP D RE).
Qed.

(** ur_invkin and back, limits ignored *)
Theorem C116_ur_back : forall L (f : b64 -> b64) bdot argsort rf r posef pose lastf sols x1 x2 x3 x4 x5 x6 M rho h p0 p1 p2 p3 p4 p5 p6 R06 v,
  In bdot b_dots -> libm_ok L (bpow radix2 (-52)) -> libm_total L -> libm_arc_ok L (bpow radix2 (-50)) -> libm_angle_ok L (bpow radix2 (-50)) -> libm_asin_ok f (bpow radix2 (-50)) ->
  ur r h p0 p1 p2 p3 p4 p5 p6 -> wf_aux r -> stored_robot L bdot M rf r -> grtype rf = rtype r -> stored_pose L bdot M posef pose ->
  bpow radix2 (-150) <= M <= bpow radix2 150 -> 1002 / 1000 * extent r pose <= M -> 1 <= rho <= 1000 ->
  g_ur_invkin (b64_arith L bdot) f b_rem argsort rf posef lastf = Ok sols -> In [x1; x2; x3; x4; x5; x6] sols -> Forall sane [x1; x2; x3; x4; x5; x6] ->
  M <= rho * norm (perp ey p2) -> M <= rho * norm (perp ey p3) -> M <= rho * norm (perp ey (vadd p2 (rotate h (bval x3) p3))) ->
  wrist_of r pose (vadd p6 p5) R06 v -> 1 <= rho * norm (perp (rotate ez (bval x1) h) (mvec R06 h)) ->
  exists T, g_fwdkin (b64_arith L bdot) rf [x1; x2; x3; x4; x5; x6] true = Ok T /\ whole T /\
    forall u, norm (vsub (moved T u) (moved posef u)) <= sqrt_eps + rho * bpow radix2 (-21) * (M + norm u).
Proof.
  intros L f bdot argsort rf r posef pose lastf sols x1 x2 x3 x4 x5 x6 M rho h p0 p1 p2 p3 p4 p5 p6 R06 v HD HL HT HA HG HF O W SR TF SP RM EX RR E I SN LA LB OFF WO OFW.
  assert (MP : 0 < M) by (apply (rg_pos 150); exact RM).
  pose proof (C109_reaches L f bdot argsort rf r posef pose lastf sols x1 x2 x3 x4 x5 x6 M rho h p0 p1 p2 p3 p4 p5 p6 R06 v HD HL HT HA HG HF O W SR SP RM EX RR E I SN LA LB OFF WO OFW) as RE.
  destruct (C116_fwdkin L bdot M rf r [x1; x2; x3; x4; x5; x6] true HD HL HT (ur_wf _ _ _ _ _ _ _ _ _ O) (ur_types _ _ _ _ _ _ _ _ _ O) TF SR (wider M RM) (sizes r pose M EX MP) eq_refl) as (T & ET & WT & D).
  - eapply Forall_impl; [|exact SN]. intros a Ha. apply Ha.
  - reflexivity.
  - exists T. split; [exact ET|]. split; [exact WT|]. exact (close_enough L bdot M rho posef pose T r _ MP (proj1 RR) SP D RE).
Qed.

(* ---- non-vacuity: the runs of C108_ex and C109_ex, taken back ---- *)
Lemma ints_six (a b : list Z) : length a = 6%nat -> length b = 6%nat -> Forall (fun z => (-8 <= z <= 8)%Z) a -> Forall (fun z => (-8 <= z <= 8)%Z) b -> six_limits (Some (map b_ofZ a)) (Some (map b_ofZ b)).
Proof.
  intros LA LB HA HB. exists (map b_ofZ a), (map b_ofZ b). assert (G : forall l, Forall (fun z => (-8 <= z <= 8)%Z) l -> Forall sane (map b_ofZ l)).
  { intros l H. induction H as [|z l Hz H IH]; cbn [map]; constructor; [|exact IH]. destruct (pin_int z Hz) as [F V]. split; [exact F|]. rewrite V. apply Rabs_le. assert (IZR (-8) <= IZR z <= IZR 8) by (split; apply IZR_le; lia). lra. }
  rewrite !map_length. repeat split; try assumption; apply G; assumption.
Qed.
Example C116_ex : forall bdot, In bdot b_dots -> exists x T,
  g_robot6_invkin (b64_arith pin_libm bdot) pin_asin b_rem (fun _ => []) (pin_rf bdot) (pin_pose bdot) None = Ok [x] /\
  g_fwdkin (b64_arith pin_libm bdot) (pin_rf bdot) x false = Ok T /\ whole T /\
  forall u, norm (vsub (moved T u) (moved (pin_pose bdot) u)) <= sqrt_eps + 11 * bpow radix2 (-21) * (32 + norm u).
Proof.
  intros bdot HD. destruct (C108_ex bdot HD) as (x1 & x2 & x3 & x4 & x5 & x6 & E & V & SN & RE & _). exists [x1; x2; x3; x4; x5; x6].
  destruct pin_opw as [O W]. assert (P32 : 0 < 32) by lra. assert (EX : 1002 / 1000 * extent pin_r pin_goal <= 32) by (pose proof pin_extent; lra).
  destruct (C116_fwdkin pin_libm bdot 32 (pin_rf bdot) pin_r [x1; x2; x3; x4; x5; x6] false HD pin_ok pin_total (opw_wf _ _ _ _ _ _ _ _ _ _ _ _ _ _ O) eq_refl eq_refl (pin_robot 32 bdot ltac:(lra))) as (T & ET & WT & D); try reflexivity.
  - change 32 with (bpow radix2 5). split; apply bpow_le; lia.
  - exact (sizes pin_r pin_goal 32 EX P32).
  - eapply Forall_impl; [|exact SN]. intros a Ha. apply Ha.
  - apply (C116_accepts pin_libm pin_asin bdot (fun _ => []) (pin_rf bdot) (pin_pose bdot) None [[x1; x2; x3; x4; x5; x6]]); try reflexivity; [|exact E|left; reflexivity].
    apply ints_six; try reflexivity; repeat (constructor; [lia|]); constructor.
  - exists T. split; [exact E|]. split; [exact ET|]. split; [exact WT|]. apply (close_enough pin_libm bdot 32 11 (pin_pose bdot) pin_goal T pin_r (map bval [x1; x2; x3; x4; x5; x6])); try lra; [apply pin_posed; lra|exact D|exact RE].
Qed.
Example C116_ur_ex : forall bdot, In bdot b_dots -> exists x T,
  g_ur_invkin (b64_arith pinu_libm bdot) pin_asin b_rem (fun _ => []) (pinu_rf bdot) (pinu_pose bdot) None = Ok [x] /\
  g_fwdkin (b64_arith pinu_libm bdot) (pinu_rf bdot) x true = Ok T /\ whole T /\
  forall u, norm (vsub (moved T u) (moved (pinu_pose bdot) u)) <= sqrt_eps + 11 * bpow radix2 (-21) * (32 + norm u).
Proof.
  intros bdot HD. destruct (C109_ex bdot HD) as (x1 & x2 & x3 & x4 & x5 & x6 & E & V & SN & RE & _). exists [x1; x2; x3; x4; x5; x6].
  destruct pinu_ur as [O W]. assert (P32 : 0 < 32) by lra. assert (EX : 1002 / 1000 * extent pinu_r pinu_goal <= 32) by (pose proof pinu_extent; lra).
  destruct (C116_fwdkin pinu_libm bdot 32 (pinu_rf bdot) pinu_r [x1; x2; x3; x4; x5; x6] true HD pinu_ok pinu_total (ur_wf _ _ _ _ _ _ _ _ _ O) eq_refl eq_refl (pinu_robot 32 bdot ltac:(lra))) as (T & ET & WT & D); try reflexivity.
  - change 32 with (bpow radix2 5). split; apply bpow_le; lia.
  - exact (sizes pinu_r pinu_goal 32 EX P32).
  - eapply Forall_impl; [|exact SN]. intros a Ha. apply Ha.
  - exists T. split; [exact E|]. split; [exact ET|]. split; [exact WT|]. apply (close_enough pinu_libm bdot 32 11 (pinu_pose bdot) pinu_goal T pinu_r (map bval [x1; x2; x3; x4; x5; x6])); try lra; [apply pinu_posed; lra|exact D|exact RE].
Qed.
Definition refused {X} (o : out X) : bool := match o with Err AssertionError => true | _ => false end.
Lemma refused_err {X} (o : out X) : refused o = true -> o = Err AssertionError.
Proof. destruct o as [x|[]]; try discriminate. reflexivity. Qed.
(** With the limits checked, forward kinematics can refuse what ur_invkin returned: its fifth joint is not held to the limits (C109_fifth_refuted). *)
Theorem C116_ur_accepts_refuted : forall bdot, In bdot b_dots -> exists x,
  g_ur_invkin (b64_arith pinu_libm bdot) pin_asin b_rem (fun _ => []) (pinu_rf bdot) (pinu_pose bdot) None = Ok [x] /\
  g_fwdkin (b64_arith pinu_libm bdot) (pinu_rf bdot) x false = Err AssertionError.
Proof.
  intros bdot HD. destruct (C109_ex bdot HD) as (x1 & x2 & x3 & x4 & x5 & x6 & E & _). exists [x1; x2; x3; x4; x5; x6]. split; [exact E|].
  assert (C : match g_ur_invkin (b64_arith pinu_libm bdot) pin_asin b_rem (fun _ => []) (pinu_rf bdot) (pinu_pose bdot) None with Ok [x] => refused (g_fwdkin (b64_arith pinu_libm bdot) (pinu_rf bdot) x false) | _ => false end = true).
  { clear E. cbn [In b_dots] in HD. repeat (destruct HD as [<- | HD]; [vm_compute; reflexivity|]). contradiction. }
  rewrite E in C. exact (refused_err _ C).
Qed.
Print Assumptions C116_fwdkin.
Print Assumptions C116_accepts.
Print Assumptions C116_back.
Print Assumptions C116_ur_back.
Print Assumptions C116_ur_accepts_refuted.
Print Assumptions C116_ex.
Print Assumptions C116_ur_ex.
