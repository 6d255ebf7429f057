(** Property C101: roll, pitch and yaw in binary64. *)
From Coq Require Import Reals ZArith List Bool Lra Lia Psatz.
From Flocq Require Import Core.Core IEEE754.BinarySingleNaN.
From Verif Require Import LinAlg RealAux Py FactsReal FactsLinAlg ModelRot SpecRot FactsRot FactsRot2 FactsNorm FactsAngle ModelFloat ModelFloat6 SpecRound FactsFloat FactsB64 FactsExact FactsTrack FactsSumsq
  SpecArc SpecArc2 PropNorm PropSlerp PropElbow FactsNear PropPi PropAngle PropR2rot PropQuat64 SpecRpy FactsRpy.
Import ListNotations.
Open Scope R_scope.
Local Notation near := SpecArc2.near.
Local Notation near_weak := FactsNear.near_weak.

(** In exact arithmetic the generic code is the model. *)
Theorem C101_real : (forall r p y, g_rpy2R real_arith r p y = emb_m (rpy2R r p y)) /\ (forall M, g_R2rpy real_arith (emb_m M) = R2rpy M).
Proof.
  split.
  - intros r p y. unfold g_rpy2R, rpy2R, g_ex, g_ey, g_ez. rewrite real_lit0, real_lit1.
    change (W3 0 0 1) with (emb_v (V3 0 0 1)). change (W3 0 1 0) with (emb_v (V3 0 1 0)). change (W3 1 0 0) with (emb_v (V3 1 0 0)).
    rewrite !real_rot, !real_mm. reflexivity.
  - intros M. unfold g_R2rpy, R2rpy, l_norm. cbn [natan2 nneg nsqrt ndot nmul nlt nlit real_arith emb_m emb_v row0 row1 row2 vx vy vz w0 w1 w2 combine].
    assert (D : forall a b, dot_R [a; b] [a; b] = a * a + b * b) by (intros; unfold dot_R; cbn [combine fold_right fst snd]; ring). rewrite !D.
    assert (E : 1 / IZR (2 ^ 52) * (10 / 1) = eps * 10) by (unfold eps; cbn; field).
    change (nmul real_arith (neps real_arith) (10 / 1)) with (1 / IZR (2 ^ 52) * (10 / 1)). unfold neps. cbn [nlit real_arith]. rewrite E. reflexivity.
Qed.

(** The matrix of stored angles. *)
Lemma SO3_axis t : is_SO3 (rot (V3 1 0 0) t) /\ is_SO3 (rot (V3 0 1 0) t) /\ is_SO3 (rot (V3 0 0 1) t).
Proof. repeat split; apply rot_SO3; red; rot_unfold; ring. Qed.
Theorem C101_rpy2R : forall L bdot r p y, In bdot b_dots -> libm_ok L (bpow radix2 (-52)) ->
  bfin (m_sin L r) -> bfin (m_cos L r) -> bfin (m_sin L p) -> bfin (m_cos L p) -> bfin (m_sin L y) -> bfin (m_cos L y) ->
  stored_matrix (bpow radix2 (-44)) (g_rpy2R (b64_arith L bdot) r p y) (rpy2R (bval r) (bval p) (bval y)).
Proof.
  intros L bdot r p y HD HL Sr Cr Sp Cp Sy Cy. pose proof uu_pos as U. pose proof uu_small as US. pose proof uu_val' as UV.
  assert (W : bpow radix2 (-44) = 512 * uu) by (rewrite UV; cbn; lra). rewrite W.
  pose proof (axis_rot L bdot HD HL r _ _ Sr Cr (or_introl eq_refl)) as X. pose proof (axis_rot L bdot HD HL p _ _ Sp Cp (or_intror (or_introl eq_refl))) as Y. pose proof (axis_rot L bdot HD HL y _ _ Sy Cy (or_intror (or_intror eq_refl))) as Z.
  destruct (SO3_axis (bval r)) as (SX & _ & _). destruct (SO3_axis (bval p)) as (_ & SY & _). destruct (SO3_axis (bval y)) as (_ & _ & SZ).
  pose proof (stored_mm L bdot (40 * uu) (40 * uu) _ _ _ _ HD ltac:(rewrite UV; lra) ltac:(rewrite UV; lra) SZ SY Z Y) as ZY.
  pose proof (stored_mm L bdot (2 * (40 * uu + 40 * uu) + 9 * uu) (40 * uu) _ _ _ _ HD ltac:(rewrite UV; lra) ltac:(rewrite UV; lra) (SO3_mmul _ _ SZ SY) SX ZY X) as ZYX.
  unfold g_rpy2R, rpy2R. eapply stored_weak; [|exact ZYX]. lra.
Qed.

(** The angles of a stored matrix. *)
Lemma ten_eps : isv (b_mul (b_lit 1 (2 ^ 52)) (b_lit 10 1)) (10 * bpow radix2 (-52)).
Proof. split; [reflexivity|]. vm_compute. lra. Qed.
Lemma near_small e x v : 0 <= e <= 1 -> near e x v -> Rabs v <= 1 -> small x.
Proof. intros E [F N] B. split; [exact F|]. apply Rabs_le_inv in N. apply Rabs_le_inv in B. apply Rabs_le. lra. Qed.
Theorem C101_R2rpy : forall L bdot M r0 p0 y0 e, In bdot b_dots -> libm_angle_ok L (bpow radix2 (-50)) ->
  bpow radix2 (-47) <= cos p0 -> 0 <= e -> 2048 * e <= cos p0 -> stored_matrix e M (rpy2R r0 p0 y0) ->
  exists r p y, g_R2rpy (b64_arith L bdot) M = Ok (r, p, y) /\ bfin r /\ bfin p /\ bfin y /\
    same_angle (6 * e / cos p0 + bpow radix2 (-50)) (bval r) r0 /\ same_angle (9 * e + bpow radix2 (-47)) (bval p) p0 /\ same_angle (6 * e / cos p0 + bpow radix2 (-50)) (bval y) y0.
Proof.
  intros L bdot M r0 p0 y0 e HD HL HC E0 EC HM. pose proof uu_pos as U. pose proof uu_small as US. pose proof uu_val' as UV.
  assert (W50 : bpow radix2 (-50) = 8 * uu) by (rewrite UV; cbn; lra). assert (W47 : bpow radix2 (-47) = 64 * uu) by (rewrite UV; cbn; lra). rewrite W50 in *. rewrite W47 in *.
  pose proof (COS_bound p0) as CB. set (c := cos p0) in *. rewrite rpy2R_entries in HM. fold c in HM. unfold stored_matrix in HM. cbn [m00 m01 m02 m10 m11 m12 m20 m21 m22] in HM.
  destruct HM as ((M00 & _ & _) & (M10 & _ & _) & (M20 & M21 & M22)). set (a00 := w0 (w0 M)) in *. set (a10 := w0 (w1 M)) in *. set (a20 := w0 (w2 M)) in *. set (a21 := w1 (w2 M)) in *. set (a22 := w2 (w2 M)) in *.
  assert (C0 : 0 < c) by lra.
  assert (B : forall x, -1 <= x <= 1 -> Rabs (c * x) <= 1). { intros x X. rewrite Rabs_mult, (Rabs_right c) by lra. rewrite <- (Rmult_1_l 1). apply Rmult_le_compat; try apply Rabs_pos; [lra|lra|apply Rabs_le; lra]. }
  rewrite (Rmult_comm (cos y0)) in M00. rewrite (Rmult_comm (sin y0)) in M10.
  (* lengths of two entries *)
  assert (G : forall x y t, near e x (c * cos t) -> near e y (c * sin t) -> near (15 / 10 * e + 7 * uu * c) (b_sqrt (bdot [x; y] [x; y])) c /\ near (15 / 10 * e + 7 * uu * c) (b_sqrt (bdot [y; x] [y; x])) c).
  { intros x y t Nx Ny. pose proof (near_small e x _ ltac:(lra) Nx (B _ (COS_bound t))) as Sx. pose proof (near_small e y _ ltac:(lra) Ny (B _ (SIN_bound t))) as Sy.
    pose proof (sin2_cos2 t) as SC. unfold Rsqr in SC.
    assert (LC : sqrt (c * cos t * (c * cos t) + c * sin t * (c * sin t)) = c). { replace (c * cos t * (c * cos t) + c * sin t * (c * sin t)) with (c * c * (sin t * sin t + cos t * cos t)) by ring. rewrite SC, Rmult_1_r. apply sqrt_square. lra. }
    pose proof (len_close _ _ _ _ e (proj2 Nx) (proj2 Ny)) as LL. rewrite LC in LL. set (S := bval x * bval x + bval y * bval y) in *.
    assert (S0 : 0 <= S) by (unfold S; pose proof (Rle_0_sqr (bval x)); pose proof (Rle_0_sqr (bval y)); unfold Rsqr in *; lra).
    apply Rabs_le_inv in LL. assert (SL : 99 / 100 * c <= sqrt S <= 101 / 100 * c) by lra.
    assert (SB : bpow radix2 (-200) <= S).
    { rewrite <- (sqrt_sqrt S S0). apply Rle_trans with (bpow radix2 (-100) * bpow radix2 (-100)); [rewrite <- bpow_plus; apply bpow_le; lia|].
      assert (bpow radix2 (-100) <= sqrt S). { apply Rle_trans with (bpow radix2 (-48)); [apply bpow_le; lia|]. assert (bpow radix2 (-48) = 32 * uu) as -> by (rewrite UV; cbn; lra). lra. }
      apply Rmult_le_compat; try apply bpow_ge_0; assumption. }
    assert (US' : 6 * uu * sqrt S <= 6 * uu * (101 / 100 * c)) by (apply Rmult_le_compat_l; lra). assert (UC : 0 <= uu * c) by (apply Rmult_le_pos; lra).
    assert (H : forall z, near (6 * uu * sqrt S) z (sqrt S) -> near (15 / 10 * e + 7 * uu * c) z c). { intros z [F N]. split; [exact F|]. apply Rabs_le_inv in N. apply Rabs_le. lra. }
    pose proof (len2 bdot x y HD Sx Sy SB) as L1. pose proof (len2 bdot y x HD Sy Sx) as L2. cbv zeta in L2. replace (bval y * bval y + bval x * bval x) with S in L2 by (unfold S; ring).
    split; apply H; [exact L1 | apply L2; exact SB]. }
  destruct (G _ _ _ M00 M10) as [N0 _]. destruct (G _ _ _ M22 M21) as [_ N2].
  assert (T : b_lt (b_mul (b_lit 1 (2 ^ 52)) (b_lit 10 1)) (b_sqrt (bdot [a00; a10] [a00; a10])) = true).
  { destruct ten_eps as [FT VT]. apply b_lt_val; [exact FT | exact (proj1 N0)|]. rewrite VT. assert (bpow radix2 (-52) = 2 * uu) as -> by (rewrite UV; cbn; lra).
    destruct N0 as [_ N0]. apply Rabs_le_inv in N0. assert (7 * uu * c <= 1 / 100 * c) by (apply Rmult_le_compat_r; lra). lra. }
  assert (UC : uu * c <= uu * 1) by (apply Rmult_le_compat_l; lra).
  destruct (dir_close L (8 * uu) e c r0 a22 a21 HL C0 E0 ltac:(lra) M22 M21) as [FR SR].
  destruct (dir_close L (8 * uu) e c y0 a00 a10 HL C0 E0 ltac:(lra) M00 M10) as [FY SY].
  pose proof (near_opp _ _ _ M20) as N20. rewrite Ropp_involutive in N20.
  destruct (dir_close L (8 * uu) (15 / 10 * e + 7 * uu) 1 p0 (b_sqrt (bdot [a21; a22] [a21; a22])) (Bopp a20) HL ltac:(lra) ltac:(lra) ltac:(rewrite UV; lra)) as [FP SP].
  { rewrite Rmult_1_l. fold c. eapply near_weak; [|exact N2]. lra. }
  { rewrite Rmult_1_l. eapply near_weak; [|exact N20]. lra. }
  eexists _, _, _. split.
  { unfold g_R2rpy, l_norm, neps. cbn [nmul nlit nlt nsqrt ndot natan2 nneg b64_arith]. match goal with |- context [assert_ ?b] => replace b with true by (symmetry; exact T) end. cbn [assert_ bind]. reflexivity. }
  split; [exact FR|]. split; [exact FP|]. split; [exact FY|].
  assert (Q0 : 0 <= e / c) by (apply Rmult_le_pos; [lra | left; apply Rinv_0_lt_compat; exact C0]).
  assert (Q1 : 6 * e / c = 6 * (e / c)) by (field; lra). rewrite Q1.
  split; [eapply same_weak; [|exact SR]; lra|]. split; [eapply same_weak; [|exact SP]; assert (D1 : forall x, x / 1 = x) by (intros; field); rewrite D1; lra|]. eapply same_weak; [|exact SY]; lra.
Qed.

(** A matrix survives the conversion to angles and back, up to an error that grows towards the
    vertical. *)
Lemma lip2 a b a' b' d e : Rabs (a - a') <= d -> Rabs (b - b') <= e -> Rabs b <= 1 -> Rabs a' <= 1 -> Rabs (a * b - a' * b') <= d + e.
Proof.
  intros D E B A. replace (a * b - a' * b') with ((a - a') * b + a' * (b - b')) by ring. eapply Rle_trans; [apply Rabs_triang|]. rewrite !Rabs_mult.
  assert (Rabs (a - a') * Rabs b <= d * 1) by (apply Rmult_le_compat; try apply Rabs_pos; assumption). assert (Rabs a' * Rabs (b - b') <= 1 * e) by (apply Rmult_le_compat; try apply Rabs_pos; assumption). lra.
Qed.
Lemma abs_mul a b : Rabs a <= 1 -> Rabs b <= 1 -> Rabs (a * b) <= 1.
Proof. intros A B. rewrite Rabs_mult, <- (Rmult_1_l 1). apply Rmult_le_compat; try apply Rabs_pos; assumption. Qed.
Lemma rpy_close dr dp dy r p y r0 p0 y0 : 0 <= dr -> 0 <= dp -> 0 <= dy -> same_angle dr r r0 -> same_angle dp p p0 -> same_angle dy y y0 ->
  let A := rpy2R r p y in let B := rpy2R r0 p0 y0 in let e := 2 * dr + dp + 2 * dy in
  (Rabs (m00 A - m00 B) <= e /\ Rabs (m01 A - m01 B) <= e /\ Rabs (m02 A - m02 B) <= e) /\
  (Rabs (m10 A - m10 B) <= e /\ Rabs (m11 A - m11 B) <= e /\ Rabs (m12 A - m12 B) <= e) /\
  (Rabs (m20 A - m20 B) <= e /\ Rabs (m21 A - m21 B) <= e /\ Rabs (m22 A - m22 B) <= e).
Proof.
  intros R0 P0 Y0 HR HP HY. rewrite !rpy2R_entries. cbn [m00 m01 m02 m10 m11 m12 m20 m21 m22]. cbv zeta.
  destruct (same_sincos _ _ _ HR) as [Sr Cr]. destruct (same_sincos _ _ _ HP) as [Sp Cp]. destruct (same_sincos _ _ _ HY) as [Sy Cy].
  assert (BS : forall x, Rabs (sin x) <= 1) by (intros; apply Rabs_le; pose proof (SIN_bound x); lra). assert (BC : forall x, Rabs (cos x) <= 1) by (intros; apply Rabs_le; pose proof (COS_bound x); lra).
  assert (L2 : forall a b a' b' d e, Rabs (a - a') <= d -> Rabs (b - b') <= e -> Rabs b <= 1 -> Rabs a' <= 1 -> - (d + e) <= a * b - a' * b' <= d + e) by (intros; apply Rabs_le_inv, lip2; assumption).
  assert (L3 : forall a b c a' b' c' d e f, Rabs (a - a') <= d -> Rabs (b - b') <= e -> Rabs (c - c') <= f -> Rabs b <= 1 -> Rabs a' <= 1 -> Rabs c <= 1 -> Rabs b' <= 1 -> - (d + e + f) <= a * b * c - a' * b' * c' <= d + e + f).
  { intros. apply Rabs_le_inv, lip2; [apply lip2; assumption | assumption | assumption | apply abs_mul; assumption]. }
  pose proof (L2 _ _ _ _ _ _ Cy Cp (BC _) (BC _)) as E1. pose proof (L2 _ _ _ _ _ _ Sy Cp (BC _) (BS _)) as E2. pose proof (L2 _ _ _ _ _ _ Cp Sr (BS _) (BC _)) as E3. pose proof (L2 _ _ _ _ _ _ Cp Cr (BC _) (BC _)) as E4.
  pose proof (L2 _ _ _ _ _ _ Sy Cr (BC _) (BS _)) as E5. pose proof (L2 _ _ _ _ _ _ Sy Sr (BS _) (BS _)) as E6. pose proof (L2 _ _ _ _ _ _ Cy Cr (BC _) (BC _)) as E7. pose proof (L2 _ _ _ _ _ _ Cy Sr (BS _) (BC _)) as E8.
  pose proof (L3 _ _ _ _ _ _ _ _ _ Cy Sp Sr (BS _) (BC _) (BS _) (BS _)) as F1. pose proof (L3 _ _ _ _ _ _ _ _ _ Cy Sp Cr (BS _) (BC _) (BC _) (BS _)) as F2.
  pose proof (L3 _ _ _ _ _ _ _ _ _ Sy Sp Sr (BS _) (BS _) (BS _) (BS _)) as F3. pose proof (L3 _ _ _ _ _ _ _ _ _ Sy Sp Cr (BS _) (BS _) (BC _) (BS _)) as F4.
  apply Rabs_le_inv in Sp. repeat split; apply Rabs_le; lra.
Qed.
Theorem C101_roundtrip_partial : forall L bdot M r0 p0 y0 e, In bdot b_dots -> libm_ok L (bpow radix2 (-52)) -> libm_angle_ok L (bpow radix2 (-50)) -> libm_total L ->
  bpow radix2 (-47) <= cos p0 -> 0 <= e -> 2048 * e <= cos p0 -> stored_matrix e M (rpy2R r0 p0 y0) ->
  exists r p y, g_R2rpy (b64_arith L bdot) M = Ok (r, p, y) /\ stored_matrix (33 * e / cos p0 + bpow radix2 (-43)) (g_rpy2R (b64_arith L bdot) r p y) (rpy2R r0 p0 y0).
Proof.
  intros L bdot M r0 p0 y0 e HD HL HA HT HC E0 EC HM. destruct (C101_R2rpy L bdot M r0 p0 y0 e HD HA HC E0 EC HM) as (r & p & y & E & Fr & Fp & Fy & Sr & Sp & Sy).
  exists r, p, y. split; [exact E|]. destruct (HT r Fr) as [R1 R2]. destruct (HT p Fp) as [P1 P2]. destruct (HT y Fy) as [Y1 Y2].
  pose proof (C101_rpy2R L bdot r p y HD HL R1 R2 P1 P2 Y1 Y2) as S. pose proof uu_pos as U. pose proof uu_val' as UV.
  assert (C0 : 0 < cos p0) by (eapply Rlt_le_trans; [apply bpow_gt_0 | exact HC]). pose proof (COS_bound p0) as CB.
  assert (Q0 : 0 <= e / cos p0) by (apply Rmult_le_pos; [lra | left; apply Rinv_0_lt_compat; exact C0]).
  assert (Q1 : e <= e / cos p0). { apply Rmult_le_reg_r with (cos p0); [exact C0|]. unfold Rdiv. rewrite Rmult_assoc, Rinv_l, Rmult_1_r by lra. assert (e * cos p0 <= e * 1) by (apply Rmult_le_compat_l; lra). lra. }
  assert (X : 6 * e / cos p0 = 6 * (e / cos p0)) by (field; lra). assert (X2 : 33 * e / cos p0 = 33 * (e / cos p0)) by (field; lra). rewrite X in Sr, Sy. rewrite X2. set (q := e / cos p0) in *.
  assert (W50 : bpow radix2 (-50) = 8 * uu) by (rewrite UV; cbn; lra). assert (W47 : bpow radix2 (-47) = 64 * uu) by (rewrite UV; cbn; lra). assert (W44 : bpow radix2 (-44) = 512 * uu) by (rewrite UV; cbn; lra). assert (W43 : bpow radix2 (-43) = 1024 * uu) by (rewrite UV; cbn; lra).
  rewrite W50 in Sr, Sy. rewrite W47 in Sp. rewrite W44 in S. rewrite W43.
  assert (X3 : 0 <= 6 * q + 8 * uu) by lra. assert (X4 : 0 <= 9 * e + 64 * uu) by lra.
  destruct (rpy_close _ _ _ _ _ _ _ _ _ X3 X4 X3 Sr Sp Sy) as ((D00 & D01 & D02) & (D10 & D11 & D12) & (D20 & D21 & D22)).
  destruct S as ((S00 & S01 & S02) & (S10 & S11 & S12) & (S20 & S21 & S22)).
  assert (G : forall x v w, near (512 * uu) x v -> Rabs (v - w) <= 2 * (6 * q + 8 * uu) + (9 * e + 64 * uu) + 2 * (6 * q + 8 * uu) -> near (33 * q + 1024 * uu) x w).
  { intros x v w [F N] D. split; [exact F|]. apply Rabs_le_inv in N. apply Rabs_le_inv in D. apply Rabs_le. lra. }
  (split; [|split]); (split; [|split]); (eapply G; [eassumption | assumption]).
Qed.
(** Angles survive the conversion to a matrix and back, up to whole turns. *)
Theorem C101_back : forall L bdot r p y, In bdot b_dots -> libm_ok L (bpow radix2 (-52)) -> libm_angle_ok L (bpow radix2 (-50)) -> libm_total L ->
  bfin r -> bfin p -> bfin y -> bpow radix2 (-33) <= cos (bval p) ->
  exists r' p' y', g_R2rpy (b64_arith L bdot) (g_rpy2R (b64_arith L bdot) r p y) = Ok (r', p', y') /\ bfin r' /\ bfin p' /\ bfin y' /\
    same_angle (bpow radix2 (-41) / cos (bval p)) (bval r') (bval r) /\ same_angle (bpow radix2 (-40)) (bval p') (bval p) /\ same_angle (bpow radix2 (-41) / cos (bval p)) (bval y') (bval y).
Proof.
  intros L bdot r p y HD HL HA HT Fr Fp Fy HC. destruct (HT r Fr) as [R1 R2]. destruct (HT p Fp) as [P1 P2]. destruct (HT y Fy) as [Y1 Y2]. pose proof uu_pos as U. pose proof uu_val' as UV. pose proof (COS_bound (bval p)) as CB.
  pose proof (C101_rpy2R L bdot r p y HD HL R1 R2 P1 P2 Y1 Y2) as S. set (c := cos (bval p)) in *. assert (C0 : 0 < c) by (eapply Rlt_le_trans; [apply bpow_gt_0 | exact HC]).
  assert (H1 : bpow radix2 (-47) <= c) by (eapply Rle_trans; [|exact HC]; apply bpow_le; lia).
  assert (H2 : 2048 * bpow radix2 (-44) <= c) by (eapply Rle_trans; [|exact HC]; cbn; lra).
  destruct (C101_R2rpy L bdot _ _ _ _ _ HD HA H1 (bpow_ge_0 _ _) H2 S) as (r' & p' & y' & E & Fr' & Fp' & Fy' & Sr & Sp & Sy). fold c in Sr, Sy.
  exists r', p', y'. split; [exact E|]. split; [exact Fr'|]. split; [exact Fp'|]. split; [exact Fy'|].
  assert (W : forall n m, bpow radix2 n = m * uu -> bpow radix2 n = m * uu) by auto.
  assert (W50 : bpow radix2 (-50) = 8 * uu) by (rewrite UV; cbn; lra). assert (W47 : bpow radix2 (-47) = 64 * uu) by (rewrite UV; cbn; lra). assert (W44 : bpow radix2 (-44) = 512 * uu) by (rewrite UV; cbn; lra). assert (W41 : bpow radix2 (-41) = 4096 * uu) by (rewrite UV; cbn; lra). assert (W40 : bpow radix2 (-40) = 8192 * uu) by (rewrite UV; cbn; lra).
  assert (K : 6 * bpow radix2 (-44) / c + bpow radix2 (-50) <= bpow radix2 (-41) / c).
  { rewrite W44, W50, W41. apply Rmult_le_reg_r with c; [exact C0|]. replace ((6 * (512 * uu) / c + 8 * uu) * c) with (3072 * uu + 8 * (uu * c)) by (field; lra). replace (4096 * uu / c * c) with (4096 * uu) by (field; lra).
    assert (uu * c <= uu * 1) by (apply Rmult_le_compat_l; lra). lra. }
  split; [eapply same_weak; [exact K | exact Sr]|]. split; [eapply same_weak; [|exact Sp]; rewrite W44, W47, W40; lra|]. eapply same_weak; [exact K | exact Sy].
Qed.

(** Close to the vertical R2rpy raises AssertionError. *)
Theorem C101_assert : forall L bdot M Q e, In bdot b_dots -> stored_matrix e M Q -> sqrt (m00 Q * m00 Q + m10 Q * m10 Q) + 2 * e <= 9 * bpow radix2 (-52) ->
  g_R2rpy (b64_arith L bdot) M = Err AssertionError.
Proof.
  intros L bdot M Q e HD HM HC. pose proof uu_pos as U. pose proof uu_small as US. pose proof uu_val' as UV. pose proof ee_pos as EP. pose proof ee_uu as EU. destruct HM as ((M00 & _) & (M10 & _) & _). set (x := w0 (w0 M)) in *. set (y := w0 (w1 M)) in *.
  assert (W52 : bpow radix2 (-52) = 2 * uu) by (rewrite UV; cbn; lra). rewrite W52 in HC.
  pose proof (len_close _ _ _ _ e (proj2 M00) (proj2 M10)) as LL. set (S := bval x * bval x + bval y * bval y) in *. set (c := sqrt (m00 Q * m00 Q + m10 Q * m10 Q)) in *.
  assert (E0 : 0 <= e) by (eapply Rle_trans; [apply Rabs_pos | exact (proj2 M00)]). apply Rabs_le_inv in LL. assert (SL : sqrt S <= 18 * uu) by lra.
  assert (S0 : 0 <= S) by (unfold S; pose proof (Rle_0_sqr (bval x)); pose proof (Rle_0_sqr (bval y)); unfold Rsqr in *; lra). pose proof (sqrt_pos S) as SP. pose proof (sqrt_sqrt S S0) as SS.
  assert (SU : S <= 324 * (uu * uu)). { rewrite <- SS. replace (324 * (uu * uu)) with (18 * uu * (18 * uu)) by ring. apply Rmult_le_compat; assumption. }
  assert (SX : forall v, bval v * bval v <= S -> bfin v -> small v).
  { intros v H F. split; [exact F|]. apply Rabs_le. assert (uu * uu <= uu * 1) by (apply Rmult_le_compat_l; lra). nra. }
  assert (Sx : small x) by (apply SX; [unfold S; pose proof (Rle_0_sqr (bval y)); unfold Rsqr in *; lra | exact (proj1 M00)]). assert (Sy : small y) by (apply SX; [unfold S; pose proof (Rle_0_sqr (bval x)); unfold Rsqr in *; lra | exact (proj1 M10)]).
  destruct (dot_sq2 bdot x y HD Sx Sy) as (F & P & E). assert (ES : sumsq [x; y] = S) by (unfold sumsq, S; cbn [fold_right]; ring). rewrite ES in E. set (v := bval (bdot [x; y] [x; y])) in *.
  assert (ET : 8 * ee <= uu * uu). { unfold ee, uu. rewrite <- bpow_plus. apply Rle_trans with (bpow radix2 3 * bpow radix2 (-1075)); [right; reflexivity|]. rewrite <- bpow_plus. apply bpow_le. lia. }
  assert (V : v <= 19 * uu * (19 * uu)). { apply Rabs_le_inv in E. assert (6 * uu * S <= 1 / 100 * S) by (apply Rmult_le_compat_r; lra). pose proof (Rmult_le_pos _ _ (Rlt_le _ _ U) (Rlt_le _ _ U)). lra. }
  assert (SV : sqrt v <= 19 * uu) by (rewrite <- (sqrt_square (19 * uu)) by lra; apply sqrt_le_1_alt; exact V).
  destruct (sqrt_range0 _ F P) as [FR VR]. fold v in VR. pose proof (rnd_err (sqrt v)) as RE. rewrite (Rabs_right (sqrt v)) in RE by (apply Rle_ge, sqrt_pos). rewrite <- VR in RE.
  assert (T : b_lt (b_mul (b_lit 1 (2 ^ 52)) (b_lit 10 1)) (b_sqrt (bdot [x; y] [x; y])) = false).
  { destruct ten_eps as [FT VT]. destruct (b_lt _ _) eqn:T; [|reflexivity]. exfalso. apply b_lt_val in T; [|exact FT | exact FR]. rewrite VT, W52 in T. apply Rabs_le_inv in RE.
    assert (uu * sqrt v <= uu * (19 * uu)) by (apply Rmult_le_compat_l; lra). assert (uu * uu <= uu * (1 / 1000)) by (apply Rmult_le_compat_l; lra). lra. }
  unfold g_R2rpy, l_norm, neps. cbn [nmul nlit nlt nsqrt ndot natan2 nneg b64_arith]. match goal with |- context [assert_ ?b] => replace b with false by (symmetry; exact T) end. reflexivity.
Qed.

(** An answer without exception is not always close: near the vertical the error of the matrix is
    multiplied by 2^48. *)
Definition gim : m3 b64 :=
  W3 (W3 (b_lit 1 (2 ^ 48)) (b_ofZ 0) (b_ofZ 1)) (W3 (b_lit 1 (2 ^ 52)) (b_ofZ 1) (b_ofZ 0)) (W3 (b_ofZ (-1)) (b_ofZ 0) (b_lit 1 (2 ^ 48))).
Definition gim_R : mat3 := let d := / 2 ^ 48 in let s := sqrt (1 - d * d) in M3 d 0 s 0 1 0 (- s) 0 d.
Theorem C101_gimbal_refuted : exists M Q, is_SO3 Q /\ stored_matrix (bpow radix2 (-52)) M Q /\ forall L bdot, In bdot b_dots -> libm_angle_ok L (bpow radix2 (-50)) ->
  exists r p y, g_R2rpy (b64_arith L bdot) M = Ok (r, p, y) /\ 1 / 20 <= Rabs (m01 (rpy2R (bval r) (bval p) (bval y)) - m01 Q).
Proof.
  exists gim, gim_R. set (d := / 2 ^ 48). assert (DV : d = / 281474976710656) by (unfold d; cbn; lra). set (s := sqrt (1 - d * d)).
  assert (D1 : 0 <= 1 - d * d) by (rewrite DV; lra). assert (S1 : s * s = 1 - d * d) by (apply sqrt_sqrt; exact D1). assert (S0 : 0 <= s) by apply sqrt_pos.
  assert (SB : 1 - bpow radix2 (-52) <= s <= 1). { assert (bpow radix2 (-52) = / 4503599627370496) as -> by (cbn; lra). rewrite DV in S1. split; nra. }
  split. { split; [apply mat3_eq; cbn [mmul mT gim_R I3 m00 m01 m02 m10 m11 m12 m20 m21 m22]; fold d; fold s; lra | unfold det; cbn [gim_R m00 m01 m02 m10 m11 m12 m20 m21 m22]; fold d; fold s; lra]. }
  assert (V48 : bval (b_lit 1 (2 ^ 48)) = d) by (rewrite DV; vm_compute; lra). assert (V52 : bval (b_lit 1 (2 ^ 52)) = bpow radix2 (-52)) by (vm_compute; lra).
  assert (Z0 : bval (b_ofZ 0) = 0) by (vm_compute; lra). assert (Z1 : bval (b_ofZ 1) = 1) by (vm_compute; lra). assert (Z2 : bval (b_ofZ (-1)) = -1) by (vm_compute; lra).
  pose proof (bpow_ge_0 radix2 (-52)) as B0. split.
  { unfold stored_matrix, gim, gim_R. cbn [w0 w1 w2 m00 m01 m02 m10 m11 m12 m20 m21 m22]. fold d. fold s.
    (split; [|split]); (split; [|split]); (split; [reflexivity|]; rewrite ?V48, ?V52, ?Z0, ?Z1, ?Z2; apply Rabs_le; lra). }
  intros L bdot HD HL.
  assert (T : b_lt (b_mul (b_lit 1 (2 ^ 52)) (b_lit 10 1)) (b_sqrt (bdot [b_lit 1 (2 ^ 48); b_lit 1 (2 ^ 52)] [b_lit 1 (2 ^ 48); b_lit 1 (2 ^ 52)])) = true).
  { repeat (destruct HD as [<- | HD]); [| | | | | | destruct HD]; vm_compute; reflexivity. }
  destruct (HL (b_ofZ 0) (b_lit 1 (2 ^ 48)) eq_refl eq_refl) as (_ & t & _ & Et & Ct & St); [rewrite Z0, V48, DV; lra|]. rewrite Z0, V48 in Ct, St.
  destruct (HL (b_lit 1 (2 ^ 52)) (b_lit 1 (2 ^ 48)) eq_refl eq_refl) as (_ & u & _ & Eu & Cu & Su); [rewrite V52, V48, DV; pose proof (bpow_gt_0 radix2 (-52)); nra|]. rewrite V52, V48 in Cu, Su.
  eexists _, _, _. split.
  { unfold g_R2rpy, l_norm, neps, gim. cbn [nmul nlit nlt nsqrt ndot natan2 nneg b64_arith w0 w1 w2]. match goal with |- context [assert_ ?b] => replace b with true by (symmetry; exact T) end. cbn [assert_ bind]. reflexivity. }
  set (r := bval (m_atan2 L (b_ofZ 0) (b_lit 1 (2 ^ 48)))) in *. set (y := bval (m_atan2 L (b_lit 1 (2 ^ 52)) (b_lit 1 (2 ^ 48)))) in *. set (p := bval _). rewrite rpy2R_entries. unfold gim_R. cbn [m01].
  assert (D0 : 0 < d) by (rewrite DV; lra). assert (SD : sqrt (d * d + 0 * 0) = d) by (rewrite Rmult_0_l, Rplus_0_r; apply sqrt_square; lra). rewrite SD in Ct, St.
  assert (ct : cos t = 1) by (apply Rmult_eq_reg_l with d; lra). assert (st : sin t = 0) by (apply Rmult_eq_reg_l with d; lra).
  assert (W50 : bpow radix2 (-50) <= 1 / 1000) by (cbn; lra). assert (B52 : bpow radix2 (-52) = d / 16) by (rewrite DV; cbn; lra). rewrite B52 in Cu, Su.
  assert (SU : 1 / 17 <= sin u).
  { set (h := sqrt (d * d + d / 16 * (d / 16))) in *. assert (H0 : 0 <= h) by apply sqrt_pos. assert (HH : h <= 17 / 16 * d). { rewrite <- (sqrt_square (17 / 16 * d)) by lra. apply sqrt_le_1_alt. pose proof (Rmult_lt_0_compat _ _ D0 D0). lra. }
    assert (0 < sin u) by nra. assert (h * sin u <= 17 / 16 * d * sin u) by (apply Rmult_le_compat_r; lra). apply Rmult_le_reg_l with (17 / 16 * d); lra. }
  pose proof (sin_lip r t) as L1. pose proof (cos_lip r t) as L2. pose proof (sin_lip y u) as L3. rewrite st, Rminus_0_r in L1. rewrite ct in L2.
  assert (K1 : Rabs (sin r) <= 1 / 1000) by lra. assert (K2 : 999 / 1000 <= cos r) by (apply (Rle_trans _ _ _ L2) in Et; apply Rabs_le_inv in Et; lra). assert (K3 : 57 / 1000 <= sin y) by (apply (Rle_trans _ _ _ L3) in Eu; apply Rabs_le_inv in Eu; lra).
  assert (K4 : Rabs (cos y * sin p * sin r) <= 1 / 1000).
  { rewrite Rabs_mult. rewrite <- (Rmult_1_l (1 / 1000)). apply Rmult_le_compat; try apply Rabs_pos; [apply abs_mul; apply Rabs_le; [pose proof (COS_bound y) | pose proof (SIN_bound p)]; lra | exact K1]. }
  assert (K5 : 56 / 1000 <= sin y * cos r) by nra.
  apply Rabs_le_inv in K4. rewrite <- Rabs_Ropp. eapply Rle_trans; [|apply Rle_abs]. lra.
Qed.

(* ---- examples ---- *)
Lemma arc_angle_ok : libm_angle_ok arc_libm (bpow radix2 (-50)).
Proof.
  rewrite eight. pose proof pi_hi as PH. intros y x Fy Fx _. pose proof (atan2_range (bval y) (bval x)) as RG. cbn [m_atan2 arc_libm]. unfold bfin in *. rewrite Fy, Fx. cbn [andb].
  destruct (near_err (atan2 (bval y) (bval x))) as [F E]; [apply Rabs_le; lra|]. split; [exact F|]. exists (atan2 (bval y) (bval x)). split; [lra|]. split; [exact E|].
  split; [symmetry; apply atan2_cos | symmetry; apply atan2_sin].
Qed.
Lemma arc_total : libm_total arc_libm.
Proof.
  intros x F. change (bfin (if is_finite x then b_near (sin (bval x)) else B754_nan) /\ bfin (if is_finite x then b_near (cos (bval x)) else B754_nan)).
  unfold bfin in F. rewrite F. split; apply b_near_ok; apply Rabs_le; [pose proof (SIN_bound (bval x)) | pose proof (COS_bound (bval x))]; lra.
Qed.
(** pitch and yaw whose cosines are 3/5 *)
Definition skewed : m3 b64 :=
  W3 (W3 (b_lit 9 25) (b_lit (-4) 5) (b_lit 12 25)) (W3 (b_lit 12 25) (b_lit 3 5) (b_lit 16 25)) (W3 (b_lit (-4) 5) (b_lit 0 1) (b_lit 3 5)).
Lemma skewed_ok : let a := atan2 (4 / 5) (3 / 5) in cos a = 3 / 5 /\ stored_matrix (bpow radix2 (-53)) skewed (rpy2R 0 a a).
Proof.
  intros a. destruct (atan2_unit (4 / 5) (3 / 5)) as [C S]; [field|]. fold a in C, S. split; [exact C|]. rewrite rpy2R_entries, C, S, sin_0, cos_0.
  unfold stored_matrix, skewed. cbn [w0 w1 w2 m00 m01 m02 m10 m11 m12 m20 m21 m22].
  (split; [|split]); (split; [|split]); lit.
Qed.
Lemma skewed_hyp : let a := atan2 (4 / 5) (3 / 5) in bpow radix2 (-47) <= cos a /\ 0 <= bpow radix2 (-53) /\ 2048 * bpow radix2 (-53) <= cos a.
Proof. intros a. destruct skewed_ok as [C _]. fold a in C. rewrite C. split; [|split; [apply bpow_ge_0 | cbn; lra]]. apply Rle_trans with (bpow radix2 (-1)); [apply bpow_le; lia | cbn; lra]. Qed.
Example C101_R2rpy_ex : let a := atan2 (4 / 5) (3 / 5) in forall bdot, In bdot b_dots ->
  exists r p y, g_R2rpy (b64_arith arc_libm bdot) skewed = Ok (r, p, y) /\
    same_angle (bpow radix2 (-48)) (bval r) 0 /\ same_angle (bpow radix2 (-46)) (bval p) a /\ same_angle (bpow radix2 (-48)) (bval y) a.
Proof.
  intros a bdot HD. destruct skewed_ok as [C S]. fold a in C, S. pose proof uu_pos as U. pose proof uu_val' as UV. destruct skewed_hyp as (H1 & H2 & H3). fold a in H1, H3.
  destruct (C101_R2rpy arc_libm bdot skewed 0 a a (bpow radix2 (-53)) HD arc_angle_ok H1 H2 H3 S) as (r & p & y & E & _ & _ & _ & Sr & Sp & Sy).
  exists r, p, y. split; [exact E|]. rewrite C in Sr, Sy.
  assert (K : 6 * bpow radix2 (-53) / (3 / 5) + bpow radix2 (-50) <= bpow radix2 (-48)) by (cbn; lra).
  split; [eapply same_weak; [exact K | exact Sr]|]. split; [eapply same_weak; [|exact Sp]; cbn; lra|]. eapply same_weak; [exact K | exact Sy].
Qed.
Example C101_roundtrip_partial_ex : let a := atan2 (4 / 5) (3 / 5) in forall bdot, In bdot b_dots ->
  exists r p y, g_R2rpy (b64_arith arc_libm bdot) skewed = Ok (r, p, y) /\ stored_matrix (bpow radix2 (-42)) (g_rpy2R (b64_arith arc_libm bdot) r p y) (rpy2R 0 a a).
Proof.
  intros a bdot HD. destruct skewed_ok as [C S]. fold a in C, S. destruct skewed_hyp as (H1 & H2 & H3). fold a in H1, H3.
  destruct (C101_roundtrip_partial arc_libm bdot skewed 0 a a (bpow radix2 (-53)) HD arc_sincos_ok arc_angle_ok arc_total H1 H2 H3 S) as (r & p & y & E & T).
  exists r, p, y. split; [exact E|]. eapply stored_weak; [|exact T]. rewrite C. cbn. lra.
Qed.
(** one radian each *)
Example C101_back_ex : forall bdot, In bdot b_dots -> let A := b64_arith arc_libm bdot in
  exists r' p' y', g_R2rpy A (g_rpy2R A (b_ofZ 1) (b_ofZ 1) (b_ofZ 1)) = Ok (r', p', y') /\ same_angle (bpow radix2 (-40)) (bval r') 1 /\ same_angle (bpow radix2 (-40)) (bval p') 1 /\ same_angle (bpow radix2 (-40)) (bval y') 1.
Proof.
  intros bdot HD A. assert (O : bval (b_ofZ 1) = 1) by (vm_compute; lra). pose proof PI2_1 as P1. pose proof PI_RGT_0 as P0. assert (P3 : 1 <= PI / 3) by (pose proof PI2_3_2; lra).
  assert (C : 1 / 2 <= cos 1). { rewrite <- cos_PI3. destruct P3 as [P3 | P3]; [left; apply cos_decreasing_1; lra | right; f_equal; lra]. }
  assert (C33 : bpow radix2 (-33) <= cos (bval (b_ofZ 1))) by (rewrite O; apply Rle_trans with (bpow radix2 (-1)); [apply bpow_le; lia | cbn; lra]).
  destruct (C101_back arc_libm bdot (b_ofZ 1) (b_ofZ 1) (b_ofZ 1) HD arc_sincos_ok arc_angle_ok arc_total eq_refl eq_refl eq_refl C33) as (r & p & y & E & _ & _ & _ & Sr & Sp & Sy).
  rewrite O in Sr, Sp, Sy. exists r, p, y. split; [exact E|].
  assert (K : bpow radix2 (-41) / cos 1 <= bpow radix2 (-40)).
  { apply Rmult_le_reg_r with (cos 1); [lra|]. replace (bpow radix2 (-41) / cos 1 * cos 1) with (bpow radix2 (-41)) by (field; lra). assert (B : bpow radix2 (-41) = bpow radix2 (-40) * (1 / 2)) by (cbn; lra). rewrite B. apply Rmult_le_compat_l; [apply bpow_ge_0 | exact C]. }
  split; [eapply same_weak; [exact K | exact Sr]|]. split; [exact Sp|]. eapply same_weak; [exact K | exact Sy].
Qed.
Example C101_rpy2R_ex : bfin (m_sin arc_libm (b_ofZ 1)) /\ bfin (m_cos arc_libm (b_ofZ 1)).
Proof. apply arc_total. reflexivity. Qed.
(** straight up *)
Example C101_assert_ex : forall L bdot, In bdot b_dots ->
  g_R2rpy (b64_arith L bdot) (W3 (W3 (b_ofZ 0) (b_ofZ 0) (b_ofZ 1)) (W3 (b_lit 1 (2 ^ 52)) (b_ofZ 1) (b_ofZ 0)) (W3 (b_ofZ (-1)) (b_ofZ 0) (b_ofZ 0))) = Err AssertionError.
Proof.
  intros L bdot HD. apply (C101_assert L bdot _ (M3 0 0 1 0 1 0 (-1) 0 0) (bpow radix2 (-52)) HD).
  - assert (V52 : bval (b_lit 1 (2 ^ 52)) = bpow radix2 (-52)) by (vm_compute; lra). assert (Z0 : bval (b_ofZ 0) = 0) by (vm_compute; lra). assert (Z1 : bval (b_ofZ 1) = 1) by (vm_compute; lra). assert (Z2 : bval (b_ofZ (-1)) = -1) by (vm_compute; lra).
    pose proof (bpow_ge_0 radix2 (-52)) as B0. unfold stored_matrix. cbn [w0 w1 w2 m00 m01 m02 m10 m11 m12 m20 m21 m22].
    (split; [|split]); (split; [|split]); (split; [reflexivity|]; rewrite ?V52, ?Z0, ?Z1, ?Z2; apply Rabs_le; lra).
  - cbn [m00 m10]. rewrite Rmult_0_l, Rplus_0_r, sqrt_0. pose proof (bpow_ge_0 radix2 (-52)). lra.
Qed.
Print Assumptions C101_real.
Print Assumptions C101_rpy2R.
Print Assumptions C101_R2rpy.
Print Assumptions C101_roundtrip_partial.
Print Assumptions C101_back.
Print Assumptions C101_assert.
Print Assumptions C101_gimbal_refuted.
