(** fwdkin of a stored robot with six rotary joints in binary64: it returns finite numbers near the exact pose. *)
From Coq Require Import Reals ZArith List Bool Lra Lia Psatz.
From Flocq Require Import Core.Core IEEE754.BinarySingleNaN.
From Verif Require Import LinAlg RealAux Py FactsReal FactsLinAlg ModelRot SpecRot FactsRot FactsNorm ModelFloat SpecRound FactsRound FactsB64 FactsExact FactsTrack SpecArc SpecSub4 SpecRpy FactsPath64 ModelTransform ModelRobot ModelKin SpecKin FactsKin SpecArc2 SpecRobot64 FactsRobot64 SpecTrip64.
Import ListNotations.
Open Scope R_scope.

Section Trip.
Context (L : libm) (bdot : list b64 -> list b64 -> b64) (HD : In bdot b_dots) (HL : libm_ok L (bpow radix2 (-52))) (HT : libm_total L).
Notation A := (b64_arith L bdot).
Notation vval := (SpecRound.vval (A := b64_arith L bdot) bval).
Notation mval := (SpecRound.mval (A := b64_arith L bdot) bval).
Notation mc := (FactsPath64.mc L bdot).
Notation vc := (FactsPath64.vc L bdot).

(** one joint *)
Lemma step_ok M a b H P t (T : gtf A) R p h q : rg 380 M -> 0 <= a <= 20000 -> 0 <= b <= 40000 -> stored_axis3 H h -> stored3 M P q -> bfin t -> mc a (gR T) R -> vc M b (gp T) p -> norm p + norm q <= M ->
  mc (a + 1166) (gR (g_fk_step A Rotary H P t T)) (mmul R (rot h (bval t))) /\ vc M (b + a + 1191) (gp (g_fk_step A Rotary H P t T)) (vadd p (mvec (mmul R (rot h (bval t))) q)) /\
  norm (vadd p (mvec (mmul R (rot h (bval t))) q)) <= norm p + norm q.
Proof.
  intros RM Ha Hb SH (F0 & F1 & F2 & EQ & NQ) Ft MR VP N. cbn [g_fk_step]. cbv zeta. cbn [gR gp].
  assert (M1 : mc (a + 1143 + 23) (g_mm A (gR T) (g_rot A H t)) (mmul R (rot h (bval t)))) by (apply mc_mul; try assumption; try lra; apply rot_mc; assumption).
  assert (S1 : is_SO3 (mmul R (rot h (bval t)))) by apply M1.
  assert (NN : norm (vadd p (mvec (mmul R (rot h (bval t))) q)) <= norm p + norm q) by (eapply Rle_trans; [apply norm_triangle|]; rewrite (norm_SO3 _ _ S1); lra).
  assert (VQ : vc M 0 P q) by (rewrite EQ in *; apply (vc_exact L bdot M P); [repeat split; assumption|exact NQ]).
  pose proof (vc_mv L bdot HD HL M (a + 1143 + 23) 0 _ _ _ _ RM ltac:(lra) ltac:(lra) M1 VQ) as V1.
  pose proof (vc_add L bdot M b (a + 1143 + 23 + 0 + 23) _ _ _ _ RM ltac:(lra) ltac:(lra) VP V1 ltac:(lra)) as V2.
  pose proof (rg_pos _ _ RM).
  split; [eapply mc_weak; [|exact M1]; lra|]. split; [eapply vc_weak; [lra| |exact V2]; lra|exact NN].
Qed.
Lemma apply_ok M (rf : grobot A) r (af : gtf A) T : rg 380 M -> stored_robot L bdot M rf r -> mc 7000 (gR af) (tR T) -> vc M 24700 (gp af) (tp T) -> norm (tp T) + shift_of (tool_transform r) + shift_of (rflange r) + shift_of (rbase r) <= M ->
  mc 8700 (gR (g_apply_aux A rf af)) (tR (apply_aux r T)) /\ vc M 40000 (gp (g_apply_aux A rf af)) (tp (apply_aux r T)).
Proof.
  intros RM SR M0 V0 SZ. pose proof (rg_pos _ _ RM) as MP0. pose proof (norm_nonneg (tp T)) as NT.
  pose proof (sr_tool _ _ _ _ _ SR) as ST. pose proof (sr_flange _ _ _ _ _ SR) as SF. pose proof (sr_base _ _ _ _ _ SR) as SB. unfold g_apply_aux, apply_aux. cbv zeta.
  assert (NS : forall o, 0 <= shift_of o) by (intros [o|]; cbn; [apply norm_nonneg|lra]). pose proof (NS (tool_transform r)) as N1. pose proof (NS (rflange r)) as N2. pose proof (NS (rbase r)) as N3.
  set (X1 := match grflange rf with Some W => g_tmul A af W | None => af end). set (T1 := match rflange r with Some W => tmul T W | None => T end).
  assert (H1 : mc 7535 (gR X1) (tR T1) /\ vc M 31725 (gp X1) (tp T1) /\ norm (tp T1) <= norm (tp T) + shift_of (rflange r)).
  { unfold X1, T1. unfold rep_opt in SF. destruct (grflange rf) as [W|], (rflange r) as [W'|]; try contradiction; cbn [shift_of] in *.
    - destruct (pose_mc L bdot M W W' SF) as (MI & VI). destruct (mul_ok L bdot HD HL M 7000 24700 512 0 af W T W') as (MM & VV & NN); try assumption; try lra.
      split; [eapply mc_weak; [|exact MM]; lra|]. split; [eapply vc_weak; [lra| |exact VV]; lra|]. lra.
    - split; [eapply mc_weak; [|exact M0]; lra|]. split; [eapply vc_weak; [lra| |exact V0]; lra|]. lra. }
  clearbody X1 T1. destruct H1 as (M1 & V1 & T1N).
  set (X2 := match grtool rf with Some W => g_tmul A X1 W | None => X1 end). set (T2 := match tool_transform r with Some W => tmul T1 W | None => T1 end).
  assert (H2 : mc 8070 (gR X2) (tR T2) /\ vc M 39285 (gp X2) (tp T2) /\ norm (tp T2) <= norm (tp T1) + shift_of (tool_transform r)).
  { unfold X2, T2. unfold rep_opt in ST. destruct (grtool rf) as [W|], (tool_transform r) as [W'|]; try contradiction; cbn [shift_of] in *.
    - destruct (pose_mc L bdot M W W' ST) as (MI & VI). destruct (mul_ok L bdot HD HL M 7535 31725 512 0 X1 W T1 W') as (MM & VV & NN); try assumption; try lra.
      split; [eapply mc_weak; [|exact MM]; lra|]. split; [eapply vc_weak; [lra| |exact VV]; lra|]. lra.
    - split; [eapply mc_weak; [|exact M1]; lra|]. split; [eapply vc_weak; [lra| |exact V1]; lra|]. lra. }
  clearbody X2 T2. destruct H2 as (M2 & V2 & T2N).
  unfold rep_opt in SB. destruct (grbase rf) as [W|], (rbase r) as [W'|]; try contradiction; cbn [shift_of] in *.
  - destruct (pose_mc L bdot M W W' SB) as (MI & VI). destruct (mul_ok L bdot HD HL M 512 0 8070 39285 W X2 W' T2) as (MM & VV & NN); try assumption; try lra.
    split; [eapply mc_weak; [|exact MM]; lra|]. eapply vc_weak; [lra| |exact VV]; lra.
  - split; [eapply mc_weak; [|exact M2]; lra|]. eapply vc_weak; [lra| |exact V2]; lra.
Qed.
Lemma two_cons {X Y} (P : X -> Y -> Prop) x y l m : Forall2 P (x :: l) (y :: m) -> P x y /\ Forall2 P l m.
Proof. intros H. inversion H; auto. Qed.
Lemma two_six {X Y} (P : X -> Y -> Prop) l m : Forall2 P l m -> length l = length m.
Proof. induction 1; cbn; congruence. Qed.
Notation six := [Rotary; Rotary; Rotary; Rotary; Rotary; Rotary].
Lemma fwd_ok M (rf : grobot A) r xs ignore : rg 380 M -> stored_robot L bdot M rf r -> wf_robot r -> rtype r = six -> grtype rf = six -> length xs = 6%nat -> Forall bfin xs ->
  fold_right (fun p s => norm p + s) 0 (rP r) + shift_of (tool_transform r) + shift_of (rflange r) + shift_of (rbase r) <= M -> g_check_limits A rf xs ignore = Ok tt ->
  exists T, g_fwdkin A rf xs ignore = Ok T /\ whole T /\ forall u, norm (vsub (moved T u) (robot_point r (map bval xs) u)) <= 40000 * uu * (M + norm u).
Proof.
  intros RM SR W TY TF LX FX SZ CL. pose proof (sr_H _ _ _ _ _ SR) as SH. pose proof (sr_P _ _ _ _ _ SR) as SP. pose proof (wf_H r W) as LH. pose proof (wf_P r W) as LP. rewrite TY in LH, LP.
  unfold g_fwdkin. rewrite CL. cbn [bind]. rewrite TF.
  pose proof (two_six _ _ _ SH) as LH'. pose proof (two_six _ _ _ SP) as LP'. rewrite LH in LH'. rewrite LP in LP'.
  destruct (grH rf) as [|H0 [|H1 [|H2 [|H3 [|H4 [|H5 [|]]]]]]] eqn:EH; try discriminate LH'. destruct (grP rf) as [|P0 [|P1 [|P2 [|P3 [|P4 [|P5 [|P6 [|]]]]]]]] eqn:EP; try discriminate LP'.
  destruct (rH r) as [|h0 [|h1 [|h2 [|h3 [|h4 [|h5 [|]]]]]]] eqn:Eh; try discriminate LH. destruct (rP r) as [|p0 [|p1 [|p2 [|p3 [|p4 [|p5 [|p6 [|]]]]]]]] eqn:Ep; try discriminate LP.
  destruct xs as [|x0 [|x1 [|x2 [|x3 [|x4 [|x5 [|]]]]]]]; try discriminate LX. clear LH LP LH' LP' LX.
  cbn [fold_right] in SZ.
  repeat match goal with H : Forall2 _ (_ :: _) (_ :: _) |- _ => apply two_cons in H; destruct H as [? H] end. clear SH SP.
  repeat match goal with H : Forall _ (_ :: _) |- _ => inversion_clear H as [|? ? ? FX'']; rename FX'' into FX end. clear FX.
  assert (NS : forall o, 0 <= shift_of o) by (intros [o|]; cbn; [apply norm_nonneg|lra]). pose proof (NS (tool_transform r)) as N1. pose proof (NS (rflange r)) as N2. pose proof (NS (rbase r)) as N3.
  pose proof (norm_nonneg p0) as G0. pose proof (norm_nonneg p1) as G1. pose proof (norm_nonneg p2) as G2. pose proof (norm_nonneg p3) as G3. pose proof (norm_nonneg p4) as G4. pose proof (norm_nonneg p5) as G5. pose proof (norm_nonneg p6) as G6.
  set (T0 := @GT A (g_I3 A) P0).
  assert (B0 : mc 0 (gR T0) I3).
  { split; [repeat split; reflexivity|]. split; [|apply SO3_I]. replace (msub (mval (gR T0)) I3) with mzero; [unfold frob, frob2, mzero; cbn; rewrite !Rmult_0_l, !Rplus_0_l, sqrt_0; lra|].
    assert (O1 : bval (none1 A) = 1) by (vm_compute; lra). assert (O0 : bval (nzero A) = 0) by reflexivity.
    unfold T0, g_I3, SpecRound.mval, msub, I3, mzero. cbn [gR w0 w1 w2 m00 m01 m02 m10 m11 m12 m20 m21 m22]. rewrite O1, O0. f_equal; ring. }
  assert (V0 : vc M 0 (gp T0) p0). { match goal with H : stored3 M P0 p0 |- _ => destruct H as (Q0 & Q1 & Q2 & EV & NV) end. rewrite EV in *. apply (vc_exact L bdot M P0); [repeat split; assumption|exact NV]. }
  pose proof (rg_pos _ _ RM) as MP.
  destruct (step_ok M 0 0 H0 P1 x0 T0 I3 p0 h0 p1 RM) as (M1 & V1 & K1); try assumption; try lra.
  set (T1 := g_fk_step A Rotary H0 P1 x0 T0) in *. set (R1 := mmul I3 (rot h0 (bval x0))) in *. set (q1 := vadd p0 (mvec R1 p1)) in *.
  apply (mc_weak L bdot _ 1166) in M1; [|lra]. apply (vc_weak L bdot M _ 1191) in V1; [|lra|lra].
  destruct (step_ok M 1166 1191 H1 P2 x1 T1 R1 q1 h1 p2 RM) as (M2 & V2 & K2); try assumption; try lra.
  set (T2 := g_fk_step A Rotary H1 P2 x1 T1) in *. set (R2 := mmul R1 (rot h1 (bval x1))) in *. set (q2 := vadd q1 (mvec R2 p2)) in *.
  apply (mc_weak L bdot _ 2332) in M2; [|lra]. apply (vc_weak L bdot M _ 3548) in V2; [|lra|lra].
  destruct (step_ok M 2332 3548 H2 P3 x2 T2 R2 q2 h2 p3 RM) as (M3 & V3 & K3); try assumption; try lra.
  set (T3 := g_fk_step A Rotary H2 P3 x2 T2) in *. set (R3 := mmul R2 (rot h2 (bval x2))) in *. set (q3 := vadd q2 (mvec R3 p3)) in *.
  apply (mc_weak L bdot _ 3498) in M3; [|lra]. apply (vc_weak L bdot M _ 7071) in V3; [|lra|lra].
  destruct (step_ok M 3498 7071 H3 P4 x3 T3 R3 q3 h3 p4 RM) as (M4 & V4 & K4); try assumption; try lra.
  set (T4 := g_fk_step A Rotary H3 P4 x3 T3) in *. set (R4 := mmul R3 (rot h3 (bval x3))) in *. set (q4 := vadd q3 (mvec R4 p4)) in *.
  apply (mc_weak L bdot _ 4664) in M4; [|lra]. apply (vc_weak L bdot M _ 11760) in V4; [|lra|lra].
  destruct (step_ok M 4664 11760 H4 P5 x4 T4 R4 q4 h4 p5 RM) as (M5 & V5 & K5); try assumption; try lra.
  set (T5 := g_fk_step A Rotary H4 P5 x4 T4) in *. set (R5 := mmul R4 (rot h4 (bval x4))) in *. set (q5 := vadd q4 (mvec R5 p5)) in *.
  apply (mc_weak L bdot _ 5830) in M5; [|lra]. apply (vc_weak L bdot M _ 17615) in V5; [|lra|lra].
  destruct (step_ok M 5830 17615 H5 P6 x5 T5 R5 q5 h5 p6 RM) as (M6 & V6 & K6); try assumption; try lra.
  set (T6 := g_fk_step A Rotary H5 P6 x5 T5) in *. set (R6 := mmul R5 (rot h5 (bval x5))) in *. set (q6 := vadd q5 (mvec R6 p6)) in *.
  apply (mc_weak L bdot _ 6996) in M6; [|lra]. apply (vc_weak L bdot M _ 24636) in V6; [|lra|lra].
  destruct (apply_ok M rf r T6 (Tf R6 q6 None None) RM SR) as (M7 & V7); [eapply mc_weak; [|exact M6]; lra|eapply vc_weak; [lra| |exact V6]; lra|cbn [tp]; lra|].
  exists (g_apply_aux A rf T6). split; [reflexivity|]. split; [split; [apply M7|apply V7]|]. intros u.
  assert (FK : fwdkin r (map bval [x0; x1; x2; x3; x4; x5]) true = Ok (apply_aux r (Tf R6 q6 None None))) by (unfold fwdkin; cbn [check_limits bind]; rewrite Ep, TY, Eh; reflexivity).
  rewrite (fwdkin_ignore r (map bval [x0; x1; x2; x3; x4; x5]) W) in FK by (rewrite TY; cbn; lia). injection FK as FK. rewrite <- (act_fwdkin r _ u W). cbn [map]. rewrite FK.
  destruct M7 as (_ & EM & _). destruct V7 as (_ & EV & _). unfold moved, act.
  set (X := mval (gR (g_apply_aux A rf T6))) in *. set (y := vval (gp (g_apply_aux A rf T6))) in *. set (T := apply_aux r (Tf R6 q6 None None)) in *.
  replace (vsub (vadd (mvec X u) y) (vadd (mvec (tR T) u) (tp T))) with (vadd (mvec (msub X (tR T)) u) (vsub y (tp T))) by la_ring.
  eapply Rle_trans; [apply norm_triangle|]. pose proof (norm_mvec_le (msub X (tR T)) u) as NM. pose proof (norm_nonneg u) as NU. pose proof uu_pos as UP.
  assert (frob (msub X (tR T)) * norm u <= 40000 * uu * norm u) by (apply Rmult_le_compat_r; lra). lra.
Qed.
End Trip.
