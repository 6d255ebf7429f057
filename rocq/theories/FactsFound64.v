(** robot6_sphericalwrist_invkin in binary64: an exact solution is among the vectors that come back, the joints together. *)
From Coq Require Import Reals ZArith List Bool Lra Lia Psatz.
From Flocq Require Import Core.Core IEEE754.BinarySingleNaN.
From Verif Require Import LinAlg RealAux Py FactsReal FactsLinAlg ModelRot SpecRot FactsRot FactsNorm SpecSub FactsSub ModelInvkin ModelFloat ModelFloat2 ModelFloat3 ModelFloat6 ModelFloat9 ModelFloat10 ModelFloat11 SpecRound FactsRound FactsB64 FactsExact FactsTrack SpecArc SpecSub4 SpecReach SpecRpy FactsRpy FactsIk64 FactsPath64 FactsJoint64 FactsArm64 FactsWrist64 FactsFind64 FactsSeek64.
From Verif Require PropSub2 PropMove.
Import ListNotations.
Open Scope R_scope.

Section Both.
Context (L : libm) (bdot : list b64 -> list b64 -> b64) (f : b64 -> b64) (HD : In bdot b_dots) (HL : libm_ok L (bpow radix2 (-52))) (HT : libm_total L)
  (HA : libm_arc_ok L (8 * uu)) (HG : libm_angle_ok L (bpow radix2 (-50))) (HF : libm_asin_ok f (bpow radix2 (-50))).
Notation A := (b64_arith L bdot).
Notation vval := (SpecRound.vval (A := b64_arith L bdot) bval).
Notation vfin := (SpecRound.vfin (A := b64_arith L bdot) bfin).
Notation mc := (FactsPath64.mc L bdot).
Context (H0 H1 H2 H3 H4 H5 P0 P1 P2 P3 P4 P5 P6 : v3 b64) (pose : gtf A) (h0 h1 h2 h3 h4 h5 : vec3) (Q : mat3) (M : R).
Notation R06 := (gR pose). Notation pT := (gp pose).
Context (S0 : stored_axis3 H0 h0) (S1 : stored_axis3 H1 h1) (S2 : stored_axis3 H2 h2) (S3 : stored_axis3 H3 h3) (S4 : stored_axis3 H4 h4) (S5 : stored_axis3 H5 h5) (MQ : mc 2200 R06 Q).
Context (F0 : vfin P0) (F1 : vfin P1) (F2 : vfin P2) (F3 : vfin P3) (F6 : vfin P6) (FT : vfin pT).
Notation p0 := (vval P0). Notation p1 := (vval P1). Notation p2 := (vval P2). Notation p3 := (vval P3). Notation p6 := (vval P6). Notation T := (vval pT).
Context (RM : rg 150 M) (M1 : 1 <= M) (SZ : 1001 / 1000 * (norm p0 + norm p1 + norm p2 + norm p3 + norm p6 + norm T) <= M).
Context (E1 : h1 = ey \/ h1 = vneg ey) (E2 : h2 = ey \/ h2 = vneg ey) (O0 : on_axis h0 p0) (Y0 : vy p0 = 0) (P34 : dot h3 h4 = 0) (P35 : h5 = h3 \/ h5 = vneg h3).
Notation cv := (FactsArm64.cv L bdot P6 pT Q).
Notation c26 := (FactsArm64.c26 L bdot P0 P1 P6 pT h0 Q).
Notation c2 := (FactsArm64.c2 L bdot P2 P3 h2).
Context (a1 a2 a3 a4 a5 a6 rho w : R) (R1 : 1 <= rho) (W1 : 1 <= w) (RW : rho * w <= 32) (EX : norm (vsub (rotate h1 a2 (c2 a3)) (c26 a1)) <= 4000 * (uu * M)).
Context (EXQ : forall v, mvec Q v = rotate h0 a1 (rotate h1 a2 (rotate h2 a3 (rotate h3 a4 (rotate h4 a5 (rotate h5 a6 v)))))).
Context (K1 : M <= rho * Rabs (turn_rate ey cv (vneg h0) a1)) (K3 : M * M <= rho * Rabs (reach_rate h2 p3 p2 a3)) (K2 : M <= rho * norm (perp ey (c2 a3))) (KW : 1 <= w * Rabs (sin a5)).
Context (rf : grobot A) (EH : grH rf = [H0; H1; H2; H3; H4; H5]) (argsort : list b64 -> list nat) (last : option (list b64)) (sols : list (list b64)).
Context (RUN : g_robot6_solve A f b_rem argsort rf [P0; P1; P2; P3; P4; P5; P6] pose last = Ok sols).
Definition zr : gnormalizer A := @GN A (match grlower rf, grupper rf with Some l, Some u => Some (l, u) | _, _ => None end) last.
Context (SO : sorts A argsort zr).
Notation rr := (uu * (rho * rho)).
Context (BA : Forall (fun a => Rabs a <= 4) [a1; a2; a3; a4; a5; a6]).
Context (RO : forall i a, nth_error [a1; a2; a3; a4; a5; a6] i = Some a -> room L bdot zr i (672000000000 * rr * (w * w)) a).

Lemma rho_w : rho <= 32 /\ w <= 32 /\ 1 <= rho * rho /\ 1 <= w * w /\ rho <= rho * rho /\ w <= w * w /\ rho * rho * (w * w) <= 1024.
Proof.
  assert (X1 : rho * 1 <= rho * w) by (apply Rmult_le_compat_l; lra). assert (X2 : 1 * w <= rho * w) by (apply Rmult_le_compat_r; lra).
  assert (X3 : rho * 1 <= rho * rho) by (apply Rmult_le_compat_l; lra). assert (X4 : w * 1 <= w * w) by (apply Rmult_le_compat_l; lra).
  assert (X5 : rho * w * (rho * w) <= 32 * 32) by (apply Rmult_le_compat; lra). replace (rho * rho * (w * w)) with (rho * w * (rho * w)) by ring. lra.
Qed.
Lemma core_find : exists x1 x2 x3 x4 x5 x6 : b64, In [x1; x2; x3; x4; x5; x6] sols /\ there L bdot zr (32700 * uu * rho) (bval x1) a1 /\ there L bdot zr (5300000000 * rr) (bval x2) a2 /\ there L bdot zr (2200000000 * uu * rho) (bval x3) a3 /\
  there L bdot zr (210000000000 * rr * (w * w)) (bval x4) a4 /\ there L bdot zr (84000000000 * rr * w) (bval x5) a5 /\ there L bdot zr (672000000000 * rr * (w * w)) (bval x6) a6.
Proof.
  pose proof uu_pos as UP. pose proof uu_val' as UV. destruct rho_w as (RB & WB & R2 & W2 & RR & WW & RW2).
  assert (B : forall a, In a [a1; a2; a3; a4; a5; a6] -> Rabs a <= 4) by (apply Forall_forall; exact BA).
  assert (U0 : unit3 h0) by apply S0. assert (U1 : unit3 h1) by apply S1. assert (U2 : unit3 h2) by apply S2.
  assert (RP : 0 < rr) by (apply Rmult_lt_0_compat; lra).
  assert (RL : uu * rho <= rr) by (apply Rmult_le_compat_l; lra).
  assert (RWL : rr <= rr * (w * w)) by (rewrite <- (Rmult_1_r rr) at 1; apply Rmult_le_compat_l; lra).
  assert (RWW : rr * w <= rr * (w * w)) by (apply Rmult_le_compat_l; lra).
  assert (C1 : 1 <= rho <= 32) by lra.
  set (m := 672000000000 * rr * (w * w)) in *.
  assert (M1' : 32700 * uu * rho <= m) by (unfold m; lra). assert (M3' : 2200000000 * uu * rho <= m) by (unfold m; lra). assert (M2' : 5300000000 * uu * (rho * rho) <= m) by (unfold m; lra).
  destruct (base_found L bdot f HD HL HG HF H0 P0 P1 P2 P3 P6 R06 pT h0 h1 h2 Q M S0 MQ F1 F2 F3 F6 FT RM SZ E1 E2 Y0 a1 a2 a3 rho C1 EX K1 zr m) as (t1 & x1 & I1 & N1 & FX1 & BX1 & TX1); [apply B; cbn; tauto|exact (RO 0%nat a1 eq_refl)|exact M1'|].
  pose proof (proj1 TX1) as SX1. assert (RS : uu * (rho * rho) <= uu * 1024) by (apply Rmult_le_compat_l; [lra|]; assert (rho * rho * 1 <= rho * rho * (w * w)) by (apply Rmult_le_compat_l; lra); lra).
  destruct (solve_find A f b_rem argsort H0 H1 H2 H3 H4 H5 P0 P1 P2 P3 P4 P5 P6 rf pose last sols t1 x1 EH RUN SO) as (Q3 & E3 & G3); [apply (near_of L bdot zr 0 m a1 (32700 * uu * rho) x1 (RO 0%nat a1 eq_refl)); [apply B; cbn; tauto|exact FX1|exact TX1|rewrite UV in *; lra]|exact I1|exact N1|].
  destruct (elbow_found L bdot HD HL HT HA H0 H1 H2 P0 P1 P2 P3 P6 R06 pT h0 h1 h2 Q M S0 S1 S2 MQ F0 F1 F2 F3 F6 FT RM M1 SZ E1 E2 a1 a2 a3 rho C1 EX K3 zr m x1 Q3) as (t3 & x3 & I3 & N3 & FX3 & BX3 & TX3); [apply B; cbn; tauto|exact (RO 2%nat a3 eq_refl)|exact M3'|exact FX1|exact SX1|exact E3|].
  pose proof (proj1 TX3) as SX3. destruct (G3 t3 x3 I3 N3) as (t2 & E2' & G2); [apply (near_of L bdot zr 2 m a3 (2200000000 * uu * rho) x3 (RO 2%nat a3 eq_refl)); [apply B; cbn; tauto|exact FX3|exact TX3|rewrite UV in *; lra]|].
  destruct (shoulder_found L bdot f HD HL HT HA HG HF H0 H1 H2 P0 P1 P2 P3 P6 R06 pT h0 h1 h2 Q M S0 S1 S2 MQ F0 F1 F2 F3 F6 FT RM M1 SZ E1 E2 Y0 a1 a2 a3 rho C1 EX K3 K2 zr m t1 x1 t3 x3 t2 Q3) as (x2 & N2 & FX2 & BX2 & TX2); try assumption; [apply B; cbn; tauto|exact (RO 1%nat a2 eq_refl)|].
  pose proof (proj1 TX2) as SX2. destruct (G2 x2 N2) as (Q45 & E45 & G45). clear G2 G3.
  set (N := mmul (mmul (rot h0 (bval x1)) (rot h1 (bval x2))) (rot h2 (bval x3))).
  assert (MN : mc 3475 (w_R03 A H0 H1 H2 x1 x2 x3) N).
  { unfold w_R03, w_R01, N. eapply mc_weak; [|apply (mc_mul L bdot HD HL (1143 + 1143 + 23) 1143); [lra|lra| |apply rot_mc; assumption]; apply mc_mul; try assumption; try lra; apply rot_mc; assumption]. lra. }
  set (Na := mmul (mmul (rot h0 a1) (rot h1 a2)) (rot h2 a3)).
  assert (SNa : is_SO3 Na) by (unfold Na; repeat apply SO3_mmul; apply rot_SO3; assumption).
  set (D := 7510000000 * rr).
  assert (EXN : forall v, mvec Q v = mvec Na (rotate h3 a4 (rotate h4 a5 (rotate h5 a6 v)))) by (intros v; rewrite EXQ; unfold Na; rewrite !mvec_mmul, !rot_rotate by assumption; reflexivity).
  assert (ND : forall v, norm (vsub (mvec (mT N) v) (mvec (mT Na) v)) <= D * norm v).
  { intros v. unfold N, Na. rewrite !mT_mmul, !mvec_mmul, !rot_T, !rot_rotate by assumption.
    pose proof (rot_back h2 (bval x3) a3 _ (rotate h1 (- bval x2) (rotate h0 (- bval x1) v)) U2 SX3) as X3. rewrite !PropSub2.turn_norm in X3 by assumption.
    pose proof (rot_back h1 (bval x2) a2 _ (rotate h0 (- bval x1) v) U1 SX2) as X2. rewrite !PropSub2.turn_norm in X2 by assumption.
    pose proof (rot_back h0 (bval x1) a1 _ v U0 SX1) as X1.
    rewrite (chain3 _ (rotate h2 (- a3) (rotate h1 (- bval x2) (rotate h0 (- bval x1) v))) (rotate h2 (- a3) (rotate h1 (- a2) (rotate h0 (- bval x1) v)))).
    eapply Rle_trans; [apply norm_triangle|]. eapply Rle_trans; [apply Rplus_le_compat_l; apply norm_triangle|].
    rewrite (PropMove.rotate_sub h2 (- a3)) by exact U2. rewrite (PropMove.rotate_sub h2 (- a3)) by exact U2. rewrite (PropMove.rotate_sub h1 (- a2)) by exact U1.
    apply Rle_trans with ((2200000000 * uu * rho + (5300000000 * uu * (rho * rho) + 32700 * uu * rho)) * norm v); [lra|]. apply Rmult_le_compat_r; [apply norm_nonneg|]. unfold D. lra. }
  assert (D0 : 0 <= D) by (unfold D; lra). set (E := D + 421000000 * uu * w).
  assert (EB : 0 <= E <= 20982000000 * rr). { assert (uu * w <= uu * 32) by (apply Rmult_le_compat_l; lra). assert (0 < uu * w) by (apply Rmult_lt_0_compat; lra). assert (uu * 1 <= rr) by (apply Rmult_le_compat_l; lra). unfold E, D. lra. }
  assert (EW0 : E * w <= 20982000000 * (rr * w)) by (rewrite <- Rmult_assoc; apply Rmult_le_compat_r; lra).
  assert (EW1 : E * (w * w) <= 20982000000 * (rr * (w * w))) by (rewrite <- (Rmult_assoc 20982000000); apply Rmult_le_compat_r; lra).
  assert (EW : 256 * (E * (w * w)) <= 1).
  { assert (rr * (w * w) <= uu * 1024) by (rewrite Rmult_assoc; apply Rmult_le_compat_l; lra). rewrite UV in *. lra. }
  assert (W1' : 1 <= w <= 32) by lra.
  assert (ME : 32 * (E * (w * w)) <= m) by (unfold m; lra).
  assert (E0 : 0 <= E * (w * w)) by (apply Rmult_le_pos; lra).
  destruct (wrist_found L bdot HD HL HA H3 H4 H5 (w_R03 A H0 H1 H2 x1 x2 x3) R06 h3 h4 h5 N Q S3 S4 S5 MN MQ P34 P35 Na SNa a4 a5 a6 D w D0 W1' KW EXN ND zr EW m Q45) as (t4 & t5 & x4 & x5 & I45 & N4 & N5 & FX4 & FX5 & BX4 & BX5 & TX4 & TX5);
    [apply B; cbn; tauto|apply B; cbn; tauto|exact (RO 3%nat a4 eq_refl)|exact (RO 4%nat a5 eq_refl)|fold E; lra|exact E45|].
  fold E in TX4, TX5. assert (E01 : E * w <= E * (w * w)) by (apply Rmult_le_compat_l; lra). pose proof (proj1 TX4) as SX4. pose proof (proj1 TX5) as SX5.
  destruct (G45 t4 t5 x4 x5 I45 N4 N5) as (t6 & E6 & G6); [apply (near_of L bdot zr 3 m a4 (10 * (E * (w * w))) x4 (RO 3%nat a4 eq_refl)); [apply B; cbn; tauto|exact FX4|exact TX4|lra]|apply (near_of L bdot zr 4 m a5 (4 * (E * w)) x5 (RO 4%nat a5 eq_refl)); [apply B; cbn; tauto|exact FX5|exact TX5|lra]|].
  destruct (last_found L bdot HD HL HT HA H3 H4 H5 (w_R03 A H0 H1 H2 x1 x2 x3) R06 h3 h4 h5 N Q S3 S4 S5 MN MQ P34 P35 Na SNa a4 a5 a6 D w D0 W1' KW EXN ND zr EW m Q45 t4 t5 x4 x5 t6) as (x6 & N6 & FX6 & BX6 & TX6); try assumption; [apply B; cbn; tauto|exact (RO 5%nat a6 eq_refl)|].
  assert (0 <= rr * w) by (apply Rmult_le_pos; lra). fold E in TX6. exists x1, x2, x3, x4, x5, x6. split; [exact (G6 x6 N6)|]. split; [exact TX1|]. split; [eapply there_weak; [|exact TX2]; lra|]. split; [exact TX3|].
  split; [eapply there_weak; [|exact TX4]; lra|]. split; [eapply there_weak; [|exact TX5]; lra|eapply there_weak; [|exact TX6]; lra].
Qed.
End Both.
