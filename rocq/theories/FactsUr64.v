(** ur_invkin in binary64: what a returned vector comes from, and how far its joints put the tool. *)
From Coq Require Import Reals ZArith List Bool Lra Lia Psatz.
From Flocq Require Import Core.Core IEEE754.BinarySingleNaN.
From Verif Require Import LinAlg RealAux Py FactsReal FactsLinAlg ModelRot SpecRot FactsRot FactsNorm SpecSub FactsSub ModelInvkin ModelFloat ModelFloat2 ModelFloat3 ModelFloat6 ModelFloat9 ModelFloat10 ModelFloat11 ModelFloat12 SpecRound FactsRound FactsB64 FactsExact FactsTrack SpecArc SpecSub4 SpecRpy PropPi FactsIk64 FactsPath64 FactsJoint64 FactsArm64 FactsWrist64 FactsRobot64.
From Verif Require FactsIkGeo PropNorm PropSub4 PropSub2 PropMove.
Import ListNotations.
Open Scope R_scope.

Section Trace.
Context (A : arith).
Notation num := (num A).
Context (nasin : num -> num) (nrem : num -> num -> num) (argsort : list num -> list nat).
Section Way.
Context (H0 H1 H2 H3 H4 H5 P0 P1 P2 P3 P4 P56 : v3 num) (R06 : m3 num) (p0T : v3 num).
Definition u_R04 q1 q24 : m3 num := g_mm A (w_R01 A H0 q1) (g_rot A H3 q24).
Definition u_p23 q1 q24 : v3 num := g_vsub A (g_vsub A (g_vsub A (w_v A P56 R06 p0T) P0) (g_mv A (w_R01 A H0 q1) P1)) (g_mv A (u_R04 q1 q24) P4).
Definition u_v2 q1 q24 : v3 num := g_mv A (v3cols (w_R01 A H0 q1)) (u_p23 q1 q24).
Definition u_v4 q1 : v3 num := g_mv A (g_mm A (v3cols (w_R01 A H0 q1)) R06) H5.
Definition u_v6 q1 q24 q5 : v3 num := g_mv A (g_mm A (v3cols (g_mm A (u_R04 q1 q24) (g_rot A H4 q5))) R06) H4.
(** how a solution comes about *)
Definition ur_trace (z : gnormalizer A) (x : list num) : Prop :=
  exists q1 q2 q3 q4 q5 q6 t1 t2 t3 q24 t6 Q Q3, x = [q1; q2; q3; q4; q5; q6] /\
    (In t1 (g_subproblem4 A nasin (g_ey A) (w_v A P56 R06 p0T) (g_vneg A H0) (w_d1 A (g_vadd A P1 P2) P3 P4)) /\ g_normalize A nrem z 0 t1 = Ok (Some q1)) /\
    (g_subproblem2 A (l3 A H5) (l3 A (u_v4 q1)) (l3 A H3) (l3 A H4) = Ok Q /\ In (q24, q5) Q) /\
    (g_subproblem3 A (l3 A P3) (l3 A P2) (l3 A H2) (l_norm A (l3 A (u_p23 q1 q24))) = Ok Q3 /\ In t3 Q3 /\ g_normalize A nrem z 2 t3 = Ok (Some q3)) /\
    (g_subproblem1 A (l3 A (w_p2 A H2 P2 P3 q3)) (l3 A (u_v2 q1 q24)) (l3 A H1) = Ok t2 /\ g_normalize A nrem z 1 t2 = Ok (Some q2)) /\
    g_normalize A nrem z 3 (nsub A (nsub A q24 q2) q3) = Ok (Some q4) /\
    (g_subproblem1 A (l3 A H4) (l3 A (u_v6 q1 q24 q5)) (l3 A H5) = Ok t6 /\ g_normalize A nrem z 5 t6 = Ok (Some q6)).
End Way.
Lemma ur_solve_trace H0 H1 H2 H3 H4 H5 P0 P1 P2 P3 P4 P5 P6 r pose last sols x : grH r = [H0; H1; H2; H3; H4; H5] -> grP r = [P0; P1; P2; P3; P4; P5; P6] ->
  g_ur_invkin A nasin nrem argsort r pose last = Ok sols -> In x sols ->
  ur_trace H0 H1 H2 H3 H4 H5 P0 P1 P2 P3 P4 (g_vadd A P6 P5) (gR (g_unapply_aux A r pose)) (gp (g_unapply_aux A r pose))
    (GN (match grlower r, grupper r with Some l, Some u => Some (l, u) | _, _ => None end) last) x.
Proof.
  intros EH EP E I. unfold g_ur_invkin in E. cbv zeta in E. rewrite EH, EP in E. do 3 (apply bind_inv in E; destruct E as (? & _ & E)). cbn [index nth_error bind] in E.
  match type of E with context [g_call1 A nrem argsort ?z0] => set (z := z0) in E end. fold z.
  apply bind_inv in E. destruct E as (N1 & EN & E). apply bind_inv in E. destruct E as (ss & ES & E). pose proof (sort_in _ _ _ _ _ _ E I) as I'.
  destruct (flat_map_in _ _ _ _ ES I') as (q1 & s & IN & E1 & IS). destruct (call1_in _ _ _ _ _ _ _ _ EN IN) as (t1 & IT1 & N1').
  unfold g_ur_arm in E1. cbn [index nth_error bind] in E1. cbv zeta in E1. apply bind_inv in E1. destruct E1 as (Q & EQ & E1).
  destruct (flat_map_in _ _ _ _ E1 IS) as ([q24 q5] & s1 & INQ & E2 & IS1).
  unfold g_ur_inner in E2. cbn [index nth_error bind] in E2. cbv zeta in E2.
  apply bind_inv in E2. destruct E2 as (Q3 & E3 & E2). apply bind_inv in E2. destruct E2 as (N3 & EN3 & E2).
  destruct (flat_map_in _ _ _ _ E2 IS1) as (q3 & s' & IN3 & E4 & IS'). destruct (call1_in _ _ _ _ _ _ _ _ EN3 IN3) as (t3 & IT3 & N3').
  apply bind_inv in E4. destruct E4 as (t2 & ET2 & E4). apply bind_inv in E4. destruct E4 as (o & N2' & E4). destruct o as [q2|]; [|injection E4 as <-; destruct IS'].
  apply bind_inv in E4. destruct E4 as (o & N4' & E4). destruct o as [q4|]; [|injection E4 as <-; destruct IS'].
  apply bind_inv in E4. destruct E4 as (t6 & ET6 & E4). apply bind_inv in E4. destruct E4 as (o & N6' & E4). destruct o as [q6|]; [|injection E4 as <-; destruct IS'].
  injection E4 as <-. destruct IS' as [<- | []].
  exists q1, q2, q3, q4, q5, q6, t1, t2, t3, q24, t6, Q, Q3. unfold u_v4, u_v6, u_v2, u_p23, u_R04, w_p2, w_R01, w_v, w_d1. tauto.
Qed.
End Trace.

Lemma rotate_twice h a b v : unit3 h -> rotate h a (rotate h b v) = rotate h (a + b) v.
Proof. intros U. rewrite <- !rot_rotate by exact U. rewrite <- mvec_mmul. f_equal. apply rot_add. exact U. Qed.
(** like joint_turn, for an angle of several turns *)
Lemma joint_far L dot (z : gnormalizer (b64_arith L dot)) j (t x : b64) :
  g_normalize (b64_arith L dot) b_rem z j t = Ok (Some x) -> bfin x -> Rabs (bval x) <= 1024 -> Rabs (bval t) <= 2100 ->
  exists n, Rabs (bval x - (bval t + 2 * PI * IZR n)) <= 18500 * uu.
Proof.
  intros E F BX BT. destruct (PropNorm.C87_whole_turns L dot z j t x E F) as (n & B). exists n. pose proof uu_pos as UP. pose proof uu_small as US. pose proof pi_lo as PL.
  set (X := bval x) in *. set (T := bval t) in *. set (m := IZR n) in *.
  assert (N : Rabs m <= 500).
  { assert (B1 : Rabs (2 * PI * m) <= 3124 + uu * (3 * 2100 + 24 * Rabs m + 60)).
    { replace (2 * PI * m) with (X - T + - (X - (T + 2 * PI * m))) by ring. eapply Rle_trans; [apply Rabs_triang|]. rewrite Rabs_Ropp. assert (Rabs (X - T) <= 3124) by (apply Rabs_le_inv in BX; apply Rabs_le_inv in BT; apply Rabs_le; lra).
      assert (uu * (3 * Rabs T + 24 * Rabs m + 60) <= uu * (3 * 2100 + 24 * Rabs m + 60)) by (apply Rmult_le_compat_l; lra). lra. }
    rewrite Rabs_mult, (Rabs_right (2 * PI)) in B1 by lra. pose proof (Rabs_pos m) as MP.
    assert (uu * Rabs m <= 1 / 1000000 * Rabs m) by (apply Rmult_le_compat_r; lra). assert (314 / 50 * Rabs m <= 2 * PI * Rabs m) by (apply Rmult_le_compat_r; lra). lra. }
  eapply Rle_trans; [exact B|]. rewrite (Rmult_comm 18500). apply Rmult_le_compat_l; lra.
Qed.

Section Core.
Context (L : libm) (bdot : list b64 -> list b64 -> b64) (f : b64 -> b64) (HD : In bdot b_dots) (HL : libm_ok L (bpow radix2 (-52))) (HT : libm_total L)
  (HA : libm_arc_ok L (8 * uu)) (HG : libm_angle_ok L (bpow radix2 (-50))) (HF : libm_asin_ok f (bpow radix2 (-50))).
Notation A := (b64_arith L bdot).
Notation vval := (SpecRound.vval (A := b64_arith L bdot) bval).
Notation vfin := (SpecRound.vfin (A := b64_arith L bdot) bfin).
Notation mc := (FactsPath64.mc L bdot).
Notation vc := (FactsPath64.vc L bdot).
Context (H0 H1 H2 H3 H4 H5 P0 P1 P2 P3 P4 P6 : v3 b64) (R06 : m3 b64) (pT : v3 b64) (h0 h h4 : vec3) (Q : mat3) (M r : R).
Context (S0 : stored_axis3 H0 h0) (S1 : stored_axis3 H1 h) (S2 : stored_axis3 H2 h) (S3 : stored_axis3 H3 h) (S4 : stored_axis3 H4 h4) (S5 : stored_axis3 H5 h) (MQ : mc 2200 R06 Q).
Context (F0 : vfin P0) (F1 : vfin P1) (F2 : vfin P2) (F3 : vfin P3) (F4 : vfin P4) (F6 : vfin P6) (FT : vfin pT).
Notation p0 := (vval P0). Notation p1 := (vval P1). Notation p2 := (vval P2). Notation p3 := (vval P3). Notation p4 := (vval P4). Notation p6 := (vval P6). Notation T := (vval pT).
Context (RM : rg 150 M) (SZ : 10011 / 10000 * (norm p0 + norm p1 + norm p2 + norm p3 + norm p4 + norm p6 + norm T) <= M) (R1 : 1 <= r <= 1024).
Context (EH : h = ey \/ h = vneg ey) (O0 : on_axis h0 p0) (Y0 : vy p0 = 0) (P34 : dot h h4 = 0).
Context (LA : M <= r * norm (perp ey p2)) (LB : M <= r * norm (perp ey p3)).
Notation cv := (FactsArm64.cv L bdot P6 pT Q).
Definition c23 (x1 x24 : R) : vec3 := vsub (vsub (vsub cv p0) (rotate h0 x1 p1)) (rotate h0 x1 (rotate h x24 p4)).

Lemma MP : 0 < M. Proof. apply (rg_pos 150). exact RM. Qed.
Lemma RM' n : (150 <= n)%Z -> rg n M. Proof. intros. apply (rg_weak 150); assumption. Qed.
Lemma U0 : unit3 h0. Proof. apply S0. Qed.
Lemma UH : unit3 h. Proof. apply S1. Qed.
Ltac nn := pose proof (norm_nonneg p0); pose proof (norm_nonneg p1); pose proof (norm_nonneg p2); pose proof (norm_nonneg p3); pose proof (norm_nonneg p4); pose proof (norm_nonneg p6); pose proof (norm_nonneg T); pose proof MP.
Lemma ucv_le : norm cv <= norm T + norm p6.
Proof. unfold FactsArm64.cv. pose proof (norm_vsub_le T (mvec Q p6)) as N. rewrite norm_SO3 in N by apply MQ. lra. Qed.
Lemma c23_le x1 x24 : norm (c23 x1 x24) <= norm T + norm p6 + norm p0 + norm p1 + norm p4.
Proof.
  unfold c23. pose proof ucv_le as C. eapply Rle_trans; [apply norm_vsub_le|]. rewrite !PropSub2.turn_norm by (exact U0 || exact UH). apply Rplus_le_compat_r.
  eapply Rle_trans; [apply norm_vsub_le|]. rewrite !PropSub2.turn_norm by exact U0. apply Rplus_le_compat_r. pose proof (norm_vsub_le cv p0). lra.
Qed.
Lemma p23_ok (x1 x24 : b64) : bfin x1 -> bfin x24 -> vc M 5729 (u_p23 A H0 H3 P0 P1 P4 P6 R06 pT x1 x24) (c23 (bval x1) (bval x24)).
Proof.
  intros FX FY. nn. pose proof ucv_le as C. pose proof (norm_nonneg cv) as CN. pose proof (c23_le (bval x1) (bval x24)) as NC. unfold u_p23, c23.
  assert (V0 : vc M 2225 (w_v A P6 R06 pT) cv) by (apply (v_ok L bdot HD HL P0 P1 P2 P3 P6 R06 pT Q M MQ F6 FT RM); lra).
  assert (N1 : norm (vsub cv p0) <= norm T + norm p6 + norm p0) by (pose proof (norm_vsub_le cv p0); lra).
  assert (V1 : vc M (2225 + 0 + 2) (g_vsub A (w_v A P6 R06 pT) P0) (vsub cv p0)) by (apply vc_sub; try assumption; try lra; [apply RM'; lia|apply vc_exact; [assumption|lra]]).
  assert (VR : vc M (1143 + 0 + 23) (g_mv A (w_R01 A H0 x1) P1) (mvec (rot h0 (bval x1)) p1)) by (apply vc_mv; try assumption; try lra; [apply RM'; lia|apply rot_mc; assumption|apply vc_exact; [assumption|lra]]).
  rewrite rot_rotate in VR by exact U0.
  assert (N2 : norm (vsub (vsub cv p0) (rotate h0 (bval x1) p1)) <= norm T + norm p6 + norm p0 + norm p1) by (pose proof (norm_vsub_le (vsub cv p0) (rotate h0 (bval x1) p1)) as X; rewrite PropSub2.turn_norm in X by exact U0; lra).
  assert (V2 : vc M (2225 + 0 + 2 + (1143 + 0 + 23) + 2) (g_vsub A (g_vsub A (w_v A P6 R06 pT) P0) (g_mv A (w_R01 A H0 x1) P1)) (vsub (vsub cv p0) (rotate h0 (bval x1) p1))) by (apply vc_sub; try assumption; try lra; apply RM'; lia).
  assert (M4 : mc (1143 + 1143 + 23) (u_R04 A H0 H3 x1 x24) (mmul (rot h0 (bval x1)) (rot h (bval x24)))) by (apply mc_mul; try assumption; try lra; apply rot_mc; assumption).
  assert (V4 : vc M (1143 + 1143 + 23 + 0 + 23) (g_mv A (u_R04 A H0 H3 x1 x24) P4) (mvec (mmul (rot h0 (bval x1)) (rot h (bval x24))) p4)) by (apply vc_mv; try assumption; try lra; [apply RM'; lia|apply vc_exact; [assumption|lra]]).
  rewrite mvec_mmul, (rot_rotate h0), (rot_rotate h) in V4 by (exact U0 || exact UH).
  assert (V5 : vc M (2225 + 0 + 2 + (1143 + 0 + 23) + 2 + (1143 + 1143 + 23 + 0 + 23) + 2) (g_vsub A (g_vsub A (g_vsub A (w_v A P6 R06 pT) P0) (g_mv A (w_R01 A H0 x1) P1)) (g_mv A (u_R04 A H0 H3 x1 x24) P4)) (c23 (bval x1) (bval x24))) by (apply vc_sub; try assumption; try lra; [apply RM'; lia|fold (c23 (bval x1) (bval x24)); lra]).
  eapply vc_weak; [lra| |exact V5]. lra.
Qed.
Lemma v2_ok (x1 x24 : b64) : bfin x1 -> bfin x24 -> vc M 6895 (u_v2 A H0 H3 P0 P1 P4 P6 R06 pT x1 x24) (rotate h0 (- bval x1) (c23 (bval x1) (bval x24))).
Proof.
  intros FX FY. nn. unfold u_v2.
  assert (V : vc M (1143 + 5729 + 23) (g_mv A (v3cols (w_R01 A H0 x1)) (u_p23 A H0 H3 P0 P1 P4 P6 R06 pT x1 x24)) (mvec (mT (rot h0 (bval x1))) (c23 (bval x1) (bval x24)))) by (apply vc_mv; try assumption; try lra; [apply RM'; lia|apply mc_T; apply rot_mc; assumption|apply p23_ok; assumption]).
  rewrite (rot_T h0 (bval x1)), rot_rotate in V by exact U0. eapply vc_weak; [lra| |exact V]. lra.
Qed.
Lemma u_v6_ok (x1 x24 x5 : b64) : bfin x1 -> bfin x24 -> bfin x5 -> vc 1 8067 (u_v6 A H0 H3 H4 R06 x1 x24 x5) (u6 h h4 (rot h0 (bval x1)) Q x24 x5).
Proof.
  intros FX FY FZ. unfold u_v6, u6, N5.
  assert (M4 : mc (1143 + 1143 + 23) (u_R04 A H0 H3 x1 x24) (mmul (rot h0 (bval x1)) (rot h (bval x24)))) by (apply mc_mul; try assumption; try lra; apply rot_mc; assumption).
  assert (M5 : mc (1143 + 1143 + 23 + 1143 + 23) (g_mm A (u_R04 A H0 H3 x1 x24) (g_rot A H4 x5)) (mmul (mmul (rot h0 (bval x1)) (rot h (bval x24))) (rot h4 (bval x5)))) by (apply mc_mul; try assumption; try lra; apply rot_mc; assumption).
  rewrite mmul_assoc in M5. set (X := mmul (rot h0 (bval x1)) (mmul (rot h (bval x24)) (rot h4 (bval x5)))) in *. set (Y := g_mm A (u_R04 A H0 H3 x1 x24) (g_rot A H4 x5)) in *.
  assert (M6 : mc (1143 + 1143 + 23 + 1143 + 23 + 2200 + 23) (g_mm A (v3cols Y) R06) (mmul (mT X) Q)) by (apply mc_mul; try assumption; try lra; apply mc_T; assumption).
  assert (V : vc 1 (1143 + 1143 + 23 + 1143 + 23 + 2200 + 23 + 14 + 23) (g_mv A (g_mm A (v3cols Y) R06) H4) (mvec (mmul (mT X) Q) h4)) by (apply vc_mv; try assumption; try lra; [apply rg_1; lia|apply axis_vc; exact S4]).
  rewrite mvec_mmul in V. eapply vc_weak; [lra| |exact V]. lra.
Qed.
(** the angle of the fourth joint *)
Lemma fourth (z : gnormalizer A) (x2 x3 x4 x24 : b64) : g_normalize A b_rem z 3 (nsub A (nsub A x24 x2) x3) = Ok (Some x4) -> bfin x4 -> Rabs (bval x2) <= 1024 -> Rabs (bval x3) <= 1024 -> Rabs (bval x4) <= 1024 -> Rabs (bval x24) <= 12 ->
  forall v, norm (vsub (rotate h (bval x2 + bval x3 + bval x4) v) (rotate h (bval x24) v)) <= 22000 * uu * norm v.
Proof.
  intros N FX B2 B3 B4 B24 v. pose proof uu_pos as UP. pose proof PropSub4.ee_small' as ES. pose proof uu_small as US.
  pose proof (joint_fin L bdot z 3 _ x4 N FX) as FT2. destruct (s_sub _ _ _ _ _ _ _ (SA L bdot HD HL) _ _ FT2) as (FT1 & _ & E2). destruct (s_sub _ _ _ _ _ _ _ (SA L bdot HD HL) _ _ FT1) as (_ & _ & E1).
  set (a := nsub A x24 x2) in *. set (b := nsub A a x3) in *.
  assert (Q1 : Rabs (bval x24 - bval x2) <= 1036) by (apply Rabs_le_inv in B2; apply Rabs_le_inv in B24; apply Rabs_le; lra).
  assert (E1' : Rabs (bval a - (bval x24 - bval x2)) <= 1037 * uu) by (assert (uu * Rabs (bval x24 - bval x2) <= uu * 1036) by (apply Rmult_le_compat_l; lra); lra).
  assert (Q2 : Rabs (bval a - bval x3) <= 2061) by (apply Rabs_le_inv in E1'; apply Rabs_le_inv in Q1; apply Rabs_le_inv in B3; apply Rabs_le; lra).
  assert (E2' : Rabs (bval b - (bval a - bval x3)) <= 2062 * uu) by (assert (uu * Rabs (bval a - bval x3) <= uu * 2061) by (apply Rmult_le_compat_l; lra); lra).
  destruct (joint_far L bdot z 3 b x4 N FX B4) as (n & EN). { apply Rabs_le_inv in E2'. apply Rabs_le_inv in Q2. apply Rabs_le. lra. }
  rewrite <- (rotate_turns h (bval x24) n v). eapply Rle_trans; [apply PropMove.rotate_moves; exact UH|]. apply Rmult_le_compat_r; [apply norm_nonneg|].
  apply Rabs_le_inv in EN. apply Rabs_le_inv in E1'. apply Rabs_le_inv in E2'. apply Rabs_le. lra.
Qed.

Lemma ur_core z (x1 x2 x3 x4 x5 x6 : b64) : ur_trace A f b_rem H0 H1 H2 H3 H4 H5 P0 P1 P2 P3 P4 P6 R06 pT z [x1; x2; x3; x4; x5; x6] ->
  Forall (fun y => bfin y /\ Rabs (bval y) <= 1024) [x1; x2; x3; x4; x5; x6] ->
  M <= r * norm (perp ey (vadd p2 (rotate h (bval x3) p3))) ->
  1 <= r * norm (perp (rotate h0 (bval x1) h) (mvec Q h)) ->
  forall u, norm (vsub (vadd p0 (rotate h0 (bval x1) (vadd p1 (rotate h (bval x2) (vadd p2 (rotate h (bval x3) (vadd p3 (rotate h (bval x4) (vadd p4 (rotate h4 (bval x5) (rotate h (bval x6) (vadd p6 u))))))))))))
                       (vadd T (mvec Q u))) <= sqrt_eps + (542822000 * M + 1220022000 * (norm p6 + norm u)) * uu * r.
Proof.
  intros (q1 & q2 & q3 & q4 & q5 & q6 & t1 & t2 & t3 & x24 & t6 & QQ & Q3 & EX & (I1 & N1) & (E24 & I24) & (E3 & I3 & N3) & (EE2 & N2) & N4 & (EE6 & N6)) FX OFF OFW u.
  injection EX as <- <- <- <- <- <-.
  assert (FB : forall y, In y [x1; x2; x3; x4; x5; x6] -> bfin y /\ Rabs (bval y) <= 1024) by (apply Forall_forall; exact FX). clear FX.
  destruct (FB x1 ltac:(cbn; tauto)) as [FX1 BX1]. destruct (FB x2 ltac:(cbn; tauto)) as [FX2 BX2]. destruct (FB x3 ltac:(cbn; tauto)) as [FX3 BX3].
  destruct (FB x4 ltac:(cbn; tauto)) as [FX4 BX4]. destruct (FB x5 ltac:(cbn; tauto)) as [FX5 BX5]. destruct (FB x6 ltac:(cbn; tauto)) as [FX6 BX6]. clear FB.
  pose proof U0 as U0'. pose proof UH as UH'. assert (UH4 : unit3 h4) by apply S4. nn. pose proof uu_pos as UP. assert (UM : 0 < uu * M) by (apply Rmult_lt_0_compat; lra).
  assert (UM' : uu * M <= 12 / 100000000000000000 * M) by (apply Rmult_le_compat_r; [lra|rewrite uu_val'; lra]).
  assert (big : forall v, M <= r * norm (perp ey v) -> M <= 1048576 * norm (perp h v)).
  { intros v HV. rewrite (same_perp h ey v EH). pose proof (norm_nonneg (perp ey v)) as NN. assert (r * norm (perp ey v) <= 1048576 * norm (perp ey v)) by (apply Rmult_le_compat_r; lra). lra. }
  (* the pair out of subproblem2 *)
  assert (M01 : mc 3475 (w_R01 A H0 x1) (rot h0 (bval x1))) by (eapply mc_weak; [|unfold w_R01; apply rot_mc; eassumption]; lra).
  set (N := rot h0 (bval x1)) in *. assert (SN : is_SO3 N) by apply M01. assert (NV : forall v, mvec N v = rotate h0 (bval x1) v) by (intros v; apply rot_rotate; exact U0').
  assert (OFW' : 1 <= r * norm (perp h (u4 h N Q))) by (unfold u4; rewrite perp_turned, NV by assumption; exact OFW).
  destruct (wrist_raw L bdot HD HL HA H3 H4 H5 (w_R01 A H0 x1) R06 h h4 h N Q S3 S4 S5 M01 MQ P34 (or_introl eq_refl) r R1 OFW' QQ x24 x5 E24 I24) as (FX24 & _ & BX24 & _ & WD).
  assert (WD' : norm (vsub (rotate h (bval x24) (rotate h4 (bval x5) h)) (u4 h N Q)) <= 416400000 * uu * r).
  { eapply Rle_trans; [exact WD|]. apply Rmult_le_compat_r; [lra|]. apply Rmult_le_compat_r; lra. }
  pose proof (wrist_turn L bdot HD HA H3 H4 H5 (w_R01 A H0 x1) R06 h h4 h N Q S3 S4 S5 M01 MQ P34 (or_introl eq_refl) r R1 x24 x5 WD' _ (u_v6_ok x1 x24 x5 FX1 FX24 FX5) z t6 x6 EE6 N6 FX6 BX6 (vadd p6 u)) as WT.
  clear WD WD' EE6 E24 I24.
  (* the height of the wrist *)
  assert (V12 : vc M (0 + 0 + 2) (g_vadd A P1 P2) (vadd p1 p2)) by (pose proof (norm_triangle p1 p2); apply vc_add; try assumption; try lra; [apply RM'; lia|apply vc_exact; [assumption|lra]|apply vc_exact; [assumption|lra]]).
  destruct V12 as (F12 & E12 & _). replace (0 + 0 + 2) with 2 in E12 by ring. set (v12 := vval (g_vadd A P1 P2)) in *.
  assert (N12 : norm v12 <= norm p1 + norm p2 + 2 * (uu * M)) by (pose proof (norm_dist_le v12 (vadd p1 p2)) as D; apply Rabs_le_inv in D; pose proof (norm_triangle p1 p2); lra).
  assert (SZ12 : 1001 / 1000 * (norm p0 + norm v12 + norm p3 + norm p4 + norm p6 + norm T) <= M) by lra.
  pose proof (base_height L bdot f HD HL HG HF H0 P0 (g_vadd A P1 P2) P3 P4 P6 R06 pT h0 Q M S0 MQ F12 F3 F4 F6 FT RM SZ12 Y0 z t1 x1 I1 N1 FX1 BX1) as BH. unfold c26 in BH. fold v12 in BH.
  set (c := rotate h0 (- bval x1) (c23 (bval x1) (bval x24))).
  assert (B : forall v, rotate h0 (bval x1) (rotate h0 (- bval x1) v) = v) by (intros v; pose proof (PropSub2.turn_back h0 (- bval x1) v U0') as TB; rewrite Ropp_involutive in TB; exact TB).
  assert (B' : forall v, rotate h0 (- bval x1) (rotate h0 (bval x1) v) = v) by (intros v; apply PropSub2.turn_back; exact U0').
  assert (EC : c = vsub (vsub (vsub (rotate h0 (- bval x1) cv) p0) p1) (rotate h (bval x24) p4)) by (unfold c, c23; rewrite !PropSub2.turn_sub, !B', (turn_axis h0 _ p0 U0' O0); reflexivity).
  assert (NC : norm c = norm (c23 (bval x1) (bval x24))) by (unfold c; apply PropSub2.turn_norm; exact U0').
  pose proof (c23_le (bval x1) (bval x24)) as CL.
  assert (HC : Rabs (dot ey c - dot ey (vadd p2 p3)) <= 8610 * (uu * M)).
  { pose proof (near_dot ey v12 (vadd p1 p2)) as D. rewrite (norm_unit _ ey_unit), Rmult_1_l in D.
    assert (Z0 : dot ey p0 = 0) by (unfold dot, ey; cbn [vx vy vz]; rewrite Y0; ring).
    rewrite EC. rewrite !dot_vsub_r, (flat h), Z0 by exact EH. rewrite dot_vsub_r, !dot_vadd_r, Z0 in BH. rewrite !dot_vadd_r in *. apply Rabs_le_inv in BH. apply Rabs_le_inv in D. apply Rabs_le. lra. }
  assert (SZ3 : 1001 / 1000 * (norm p0 + norm p1 + norm p2 + norm p3 + norm p6 + norm T) <= M) by lra.
  assert (CC : 1001 / 1000 * norm (c23 (bval x1) (bval x24)) <= M) by lra.
  assert (EL : Rabs (dot (c2 L bdot P2 P3 h (bval x3)) (c2 L bdot P2 P3 h (bval x3)) - dot c c) <= 536896000 * uu * (M * M)).
  { rewrite <- (norm_sq c), NC, norm_sq. apply (elbow_at L bdot HD HA H2 P0 P1 P2 P3 P6 pT h h M S2 F2 F3 RM SZ3 EH EH z (u_p23 A H0 H3 P0 P1 P4 P6 R06 pT x1 x24) _ t3 x3 Q3); try assumption; [|apply big; exact LA|apply big; exact LB].
    eapply vc_weak; [lra| |apply p23_ok; assumption]. lra. }
  assert (SH : norm (vsub (rotate h (bval x2) (c2 L bdot P2 P3 h (bval x3))) c) <= sqrt_eps + 542800000 * uu * M * r).
  { apply (shoulder_at L bdot HD HL HT HA H1 H2 P0 P1 P2 P3 P6 pT h h M S1 S2 F2 F3 RM SZ3 EH EH z (u_v2 A H0 H3 P0 P1 P4 P6 R06 pT x1 x24) c t2); try assumption; [|rewrite NC; exact CC].
    eapply vc_weak; [lra| |apply v2_ok; assumption]. lra. }
  pose proof (fourth z x2 x3 x4 x24 N4 FX4 BX2 BX3 BX4 ltac:(lra)) as FO.
  clear BH EL I1 E3 I3 EE2 HC.
  set (y := rotate h4 (bval x5) (rotate h (bval x6) (vadd p6 u))) in *. set (s := bval x2 + bval x3 + bval x4) in *.
  assert (TS : forall v, rotate h (bval x2) (rotate h (bval x3) (rotate h (bval x4) v)) = rotate h s v) by (intros v; rewrite !rotate_twice by exact UH'; unfold s; f_equal; ring).
  rewrite NV in WT.
  assert (EQ : vsub (vadd p0 (rotate h0 (bval x1) (vadd p1 (rotate h (bval x2) (vadd p2 (rotate h (bval x3) (vadd p3 (rotate h (bval x4) (vadd p4 y))))))))) (vadd T (mvec Q u))
    = vadd (rotate h0 (bval x1) (vadd (vsub (rotate h (bval x2) (c2 L bdot P2 P3 h (bval x3))) c) (vsub (rotate h s (vadd p4 y)) (rotate h (bval x24) (vadd p4 y)))))
           (vsub (rotate h0 (bval x1) (rotate h (bval x24) y)) (mvec Q (vadd p6 u)))).
  { rewrite EC. unfold c2, FactsArm64.cv. rewrite <- (turn_axis h0 (bval x1) p0 U0' O0) at 1. repeat (rewrite ?turn_add, ?TS, ?PropSub2.turn_sub). rewrite !B, !mvec_vadd.
    generalize (rotate h0 (bval x1) p0) (rotate h0 (bval x1) p1) (rotate h0 (bval x1) (rotate h (bval x2) p2)) (rotate h0 (bval x1) (rotate h (bval x2) (rotate h (bval x3) p3))) (rotate h0 (bval x1) (rotate h s p4)) (rotate h0 (bval x1) (rotate h s y)) (rotate h0 (bval x1) (rotate h (bval x24) p4)) (rotate h0 (bval x1) (rotate h (bval x24) y)) T (mvec Q p6) (mvec Q u).
    intros. unfold vsub, vadd. cbn [vx vy vz]. f_equal; ring. }
  rewrite EQ. eapply Rle_trans; [apply norm_triangle|]. rewrite PropSub2.turn_norm by exact U0'. pose proof (norm_triangle (vsub (rotate h (bval x2) (c2 L bdot P2 P3 h (bval x3))) c) (vsub (rotate h s (vadd p4 y)) (rotate h (bval x24) (vadd p4 y)))) as TR2.
  specialize (FO (vadd p4 y)). fold s in FO. pose proof (norm_triangle p4 y) as T4. assert (NY : norm y = norm (vadd p6 u)) by (unfold y; rewrite !PropSub2.turn_norm by assumption; reflexivity).
  pose proof (norm_triangle p6 u) as TR. pose proof (norm_nonneg u) as NU. assert (UR : 0 <= 1220000000 * uu * r) by (apply Rmult_le_pos; lra).
  assert (W2 : 1220000000 * uu * r * norm (vadd p6 u) <= 1220000000 * uu * r * (norm p6 + norm u)) by (apply Rmult_le_compat_l; [exact UR|exact TR]).
  assert (W4 : 22000 * uu * norm (vadd p4 y) <= 22000 * uu * (M + (norm p6 + norm u))) by (apply Rmult_le_compat_l; lra).
  assert (W5 : 22000 * uu * (M + (norm p6 + norm u)) <= 22000 * uu * (M + (norm p6 + norm u)) * r) by (rewrite <- (Rmult_1_r (22000 * uu * (M + (norm p6 + norm u)))) at 1; apply Rmult_le_compat_l; [apply Rmult_le_pos; lra|lra]).
  replace ((542822000 * M + 1220022000 * (norm p6 + norm u)) * uu * r) with (542800000 * uu * M * r + 22000 * uu * (M + (norm p6 + norm u)) * r + 1220000000 * uu * r * (norm p6 + norm u)) by ring. lra.
Qed.
End Core.
