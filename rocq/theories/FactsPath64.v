(** Error bounds for products of rotations, and for vectors moved by them, in binary64. *)
From Coq Require Import Reals ZArith List Bool Lra Lia Psatz.
From Flocq Require Import Core.Core IEEE754.BinarySingleNaN.
From Verif Require Import LinAlg RealAux Py FactsReal FactsLinAlg ModelRot SpecRot FactsRot FactsNorm SpecSub ModelFloat ModelFloat2 ModelFloat11 SpecRound FactsRound FactsB64 FactsExact FactsTrack SpecArc SpecSub4 SpecRpy.
From Verif Require PropR2rot PropSub4 PropAngle.
Import ListNotations.
Open Scope R_scope.

Lemma ee_s : 10 * ee <= uu * bpow radix2 (-900).
Proof.
  unfold ee. replace (-1075)%Z with (-53 + (-122 + -900))%Z by lia. rewrite !bpow_plus. change (bpow radix2 (-53)) with uu. pose proof uu_pos as U. pose proof (bpow_gt_0 radix2 (-900)) as P.
  assert (bpow radix2 (-122) <= 1 / 16) by (apply Rle_trans with (bpow radix2 (-4)); [apply bpow_le; lia | cbn; lra]).
  assert (uu * (bpow radix2 (-122) * bpow radix2 (-900)) <= uu * (1 / 16 * bpow radix2 (-900))) by (apply Rmult_le_compat_l; [lra|]; apply Rmult_le_compat_r; lra).
  assert (0 <= uu * bpow radix2 (-900)) by (apply Rmult_le_pos; lra). lra.
Qed.
Lemma s_le m : rg 390 m -> bpow radix2 (-900) <= m.
Proof. intros [H _]. eapply Rle_trans; [|exact H]. apply bpow_le. lia. Qed.
Lemma s_ok : 0 < bpow radix2 (-900) <= 1.
Proof. split; [apply bpow_gt_0|]. change 1 with (bpow radix2 0). apply bpow_le. lia. Qed.
Lemma sg_ok : 3 * (7 * uu) + 3 * (10 * ee) <= 22 * uu /\ 2 * (7 * uu) + 2 * uu <= 22 * uu /\ 3 * uu <= 22 * uu.
Proof. pose proof uu_pos. pose proof PropSub4.ee_small'. lra. Qed.
Lemma pos_ok d : 0 <= d -> 0 <= uu /\ 0 <= 7 * uu /\ 0 <= 2 * uu /\ 0 <= 10 * ee /\ 0 <= d.
Proof. pose proof uu_pos. pose proof ee_pos. intros. repeat split; lra. Qed.
Lemma w52 : bpow radix2 (-52) = 2 * uu. Proof. rewrite uu_val'. cbn. lra. Qed.
Lemma prod3 a b : 0 <= a <= 100000 -> 0 <= b <= 100000 -> 1 <= (1 + a * uu) * (1 + b * uu) * (1 + 22 * uu) <= 1 + (a + b + 23) * uu.
Proof.
  intros A B. pose proof uu_pos as U. pose proof uu_val' as UV.
  assert (U1 : uu <= / 1000000000000000) by (rewrite UV; lra).
  assert (X : 0 <= a * uu <= / 10000000000) by (split; [apply Rmult_le_pos; lra|]; apply Rle_trans with (100000 * / 1000000000000000); [apply Rmult_le_compat; lra|lra]).
  assert (Y : 0 <= b * uu <= / 10000000000) by (split; [apply Rmult_le_pos; lra|]; apply Rle_trans with (100000 * / 1000000000000000); [apply Rmult_le_compat; lra|lra]).
  assert (AB : 0 <= (a * uu) * (b * uu) <= / 100000 * uu). { split; [apply Rmult_le_pos; lra|]. replace (a * uu * (b * uu)) with (a * (b * uu) * uu) by ring. apply Rmult_le_compat_r; [lra|]. apply Rle_trans with (100000 * / 10000000000); [apply Rmult_le_compat; lra|lra]. }
  set (x := a * uu) in *. set (y := b * uu) in *. replace ((a + b + 23) * uu) with (x + y + 23 * uu) by (unfold x, y; ring).
  assert (XU : 0 <= x * uu <= / 10000000000 * uu) by (split; [apply Rmult_le_pos; lra|apply Rmult_le_compat_r; lra]).
  assert (YU : 0 <= y * uu <= / 10000000000 * uu) by (split; [apply Rmult_le_pos; lra|apply Rmult_le_compat_r; lra]).
  assert (XYU : 0 <= x * y * uu <= / 10000000000 * uu). { split; [apply Rmult_le_pos; lra|]. apply Rmult_le_compat_r; [lra|]. lra. }
  replace ((1 + x) * (1 + y) * (1 + 22 * uu)) with (1 + x + y + x * y + 22 * uu + 22 * (x * uu) + 22 * (y * uu) + 22 * (x * y * uu)) by ring. lra.
Qed.
Lemma b_error (x y : b64) z m n : (0 <= n <= 1000)%Z -> m <= bpow radix2 n -> Rabs z <= m -> bfin x -> bfin y -> Rlt_bool (Rabs (rnd z)) (bpow radix2 1024) = true.
Proof. intros. apply (PropSub4.rnd_room z n); [lia|lra]. Qed.
Lemma entry_frob B e : frob B <= e -> (Rabs (m00 B) <= e /\ Rabs (m01 B) <= e /\ Rabs (m02 B) <= e) /\ (Rabs (m10 B) <= e /\ Rabs (m11 B) <= e /\ Rabs (m12 B) <= e) /\ (Rabs (m20 B) <= e /\ Rabs (m21 B) <= e /\ Rabs (m22 B) <= e).
Proof.
  intros HB. assert (G : forall x, x * x <= frob2 B -> Rabs x <= e). { intros x Hx. eapply Rle_trans; [|exact HB]. unfold frob. rewrite <- sqrt_Rsqr_abs. apply sqrt_le_1_alt. exact Hx. }
  pose proof (Rle_0_sqr (m00 B)). pose proof (Rle_0_sqr (m01 B)). pose proof (Rle_0_sqr (m02 B)). pose proof (Rle_0_sqr (m10 B)). pose proof (Rle_0_sqr (m11 B)). pose proof (Rle_0_sqr (m12 B)).
  pose proof (Rle_0_sqr (m20 B)). pose proof (Rle_0_sqr (m21 B)). pose proof (Rle_0_sqr (m22 B)). unfold Rsqr in *.
  split; [|split]; (split; [|split]); apply G; unfold frob2; lra.
Qed.
Lemma SO3_entries Q : is_SO3 Q -> (Rabs (m00 Q) <= 1 /\ Rabs (m01 Q) <= 1 /\ Rabs (m02 Q) <= 1) /\ (Rabs (m10 Q) <= 1 /\ Rabs (m11 Q) <= 1 /\ Rabs (m12 Q) <= 1) /\ (Rabs (m20 Q) <= 1 /\ Rabs (m21 Q) <= 1 /\ Rabs (m22 Q) <= 1).
Proof.
  intros S.
  assert (C : forall v, norm v = 1 -> forall x y z, mvec Q v = V3 x y z -> Rabs x <= 1 /\ Rabs y <= 1 /\ Rabs z <= 1).
  { intros v N x y z E. destruct (entry_le (mvec Q v)) as (E0 & E1 & E2). rewrite norm_SO3, N, E in E0, E1, E2 by exact S. cbn [vx vy vz] in *. auto. }
  assert (N1 : forall v, LinAlg.dot v v = 1 -> norm v = 1) by (intros v E; unfold norm, norm2; rewrite E; apply sqrt_1).
  destruct (C (V3 1 0 0) ltac:(apply N1; unfold LinAlg.dot; cbn; lra) (m00 Q) (m10 Q) (m20 Q) ltac:(la_ring)) as (A0 & A1 & A2).
  destruct (C (V3 0 1 0) ltac:(apply N1; unfold LinAlg.dot; cbn; lra) (m01 Q) (m11 Q) (m21 Q) ltac:(la_ring)) as (B0 & B1 & B2).
  destruct (C (V3 0 0 1) ltac:(apply N1; unfold LinAlg.dot; cbn; lra) (m02 Q) (m12 Q) (m22 Q) ltac:(la_ring)) as (C0 & C1 & C2). tauto.
Qed.

Section Path.
Context (L : libm) (bdot : list b64 -> list b64 -> b64) (HD : In bdot b_dots) (HL : libm_ok L (bpow radix2 (-52))) (HT : libm_total L).
Notation A := (b64_arith L bdot).
Notation vval := (SpecRound.vval (A := b64_arith L bdot) bval).
Notation mval := (SpecRound.mval (A := b64_arith L bdot) bval).
Notation vfin := (SpecRound.vfin (A := b64_arith L bdot) bfin).
Notation mfin := (SpecRound.mfin (A := b64_arith L bdot) bfin).

Lemma SA : sound A bfin bval uu (7 * uu) (2 * uu) (10 * ee).
Proof. rewrite <- w52. apply b64_sound; assumption. Qed.

(** a computed rotation, its error in units of uu *)
Definition mc (c : R) (X : m3 b64) (N : mat3) : Prop := mfin X /\ frob (msub (mval X) N) <= c * uu /\ is_SO3 N.
(** a computed vector, its error in units of uu M *)
Definition vc (M c : R) (x : v3 b64) (v : vec3) : Prop := vfin x /\ norm (vsub (vval x) v) <= c * (uu * M) /\ norm v <= M.

Lemma mc_weak c c' X N : c <= c' -> mc c X N -> mc c' X N.
Proof. intros H (F & E & S). split; [exact F|]. split; [|exact S]. pose proof uu_pos. eapply Rle_trans; [exact E|]. apply Rmult_le_compat_r; lra. Qed.
Lemma vc_weak M c c' x v : 0 <= M -> c <= c' -> vc M c x v -> vc M c' x v.
Proof. intros HM H (F & E & S). split; [exact F|]. split; [|exact S]. pose proof uu_pos. eapply Rle_trans; [exact E|]. apply Rmult_le_compat_r; [apply Rmult_le_pos; lra|lra]. Qed.
Lemma cu c : 0 <= c <= 100000 -> 0 <= c * uu <= 1 / 10000.
Proof. intros C. pose proof uu_pos. rewrite uu_val'. split; [apply Rmult_le_pos; lra|lra]. Qed.
Lemma mc_upto c X N : 0 <= c <= 100000 -> mc c X N ->
  (upto 1 (w0 (w0 X)) /\ upto 1 (w1 (w0 X)) /\ upto 1 (w2 (w0 X))) /\ (upto 1 (w0 (w1 X)) /\ upto 1 (w1 (w1 X)) /\ upto 1 (w2 (w1 X))) /\ (upto 1 (w0 (w2 X)) /\ upto 1 (w1 (w2 X)) /\ upto 1 (w2 (w2 X))).
Proof.
  intros C (((F00 & F01 & F02) & (F10 & F11 & F12) & (F20 & F21 & F22)) & E & S). destruct (cu c C) as [_ B].
  destruct (entry_frob _ _ E) as ((E00 & E01 & E02) & (E10 & E11 & E12) & (E20 & E21 & E22)). cbn [msub mval m00 m01 m02 m10 m11 m12 m20 m21 m22] in *.
  destruct (SO3_entries N S) as ((S00 & S01 & S02) & (S10 & S11 & S12) & (S20 & S21 & S22)).
  assert (G : forall x v, bfin x -> Rabs (bval x - v) <= c * uu -> Rabs v <= 1 -> upto 1 x).
  { intros x v F D V. split; [exact F|]. change (bpow radix2 1) with 2. apply Rabs_le_inv in D, V. apply Rabs_le. lra. }
  repeat split; (eapply G; eassumption).
Qed.
Lemma vc_upto M c x v : rg 380 M -> 0 <= c <= 100000 -> vc M c x v -> upto 400 (w0 x) /\ upto 400 (w1 x) /\ upto 400 (w2 x).
Proof.
  intros RM C ((F0 & F1 & F2) & E & S). destruct (cu c C) as [_ B]. pose proof (rg_pos _ _ RM) as MP.
  assert (CM : c * (uu * M) <= M). { replace (c * (uu * M)) with (c * uu * M) by ring. rewrite <- (Rmult_1_l M) at 2. apply Rmult_le_compat_r; lra. }
  destruct (entry_le (vsub (vval x) v)) as (E0 & E1 & E2). destruct (entry_le v) as (S0 & S1 & S2). cbn [vsub SpecRound.vval vx vy vz] in *.
  assert (T : 2 * M <= bpow radix2 400). { destruct RM as [_ RM]. apply Rle_trans with (bpow radix2 1 * bpow radix2 380); [change (bpow radix2 1) with 2; lra|]. rewrite <- bpow_plus. apply bpow_le. lia. }
  assert (G : forall y z, bfin y -> Rabs (bval y - z) <= norm (vsub (vval x) v) -> Rabs z <= norm v -> upto 400 y).
  { intros y z F D V. split; [exact F|]. apply Rabs_le_inv in D. apply Rabs_le_inv in V. apply Rabs_le. lra. }
  split; [|split]; (eapply G; eassumption).
Qed.
Lemma upto_400 x : upto 1 x -> upto 400 x. Proof. apply upto_weak. lia. Qed.
Lemma mc_fin a b X Y N N' : 0 <= a <= 100000 -> 0 <= b <= 100000 -> mc a X N -> mc b Y N' -> mfin (g_mm A X Y).
Proof.
  intros Ha Hb HX HY. destruct (mc_upto _ _ _ Ha HX) as ((X00 & X01 & X02) & (X10 & X11 & X12) & (X20 & X21 & X22)). destruct (mc_upto _ _ _ Hb HY) as ((Y00 & Y01 & Y02) & (Y10 & Y11 & Y12) & (Y20 & Y21 & Y22)).
  unfold g_mm, v3cols, v3map, g_dot3, mfin, vfin. cbn [w0 w1 w2 ndot b64_arith]. repeat split; apply (dot3_fin bdot HD); apply upto_400; assumption.
Qed.
Lemma mc_mul a b X Y N N' : 0 <= a <= 100000 -> 0 <= b <= 100000 -> mc a X N -> mc b Y N' -> mc (a + b + 23) (g_mm A X Y) (mmul N N').
Proof.
  intros Ha Hb HX HY. pose proof (mc_fin _ _ _ _ _ _ Ha Hb HX HY) as F. destruct (prod3 a b Ha Hb) as [P1 P2]. destruct (cu a Ha) as [A0 _]. destruct (cu b Hb) as [B0 _].
  assert (CX : mclose A bval (1 + a * uu) X N) by (split; [|apply HX]; destruct HX as (_ & E & _); lra).
  assert (CY : mclose A bval (1 + b * uu) Y N') by (split; [|apply HY]; destruct HY as (_ & E & _); lra).
  destruct (mclose_mul A bfin bval uu (7 * uu) (2 * uu) (10 * ee) 0 (22 * uu) _ SA (pos_ok 0 (Rle_refl 0)) sg_ok s_ok (1 + a * uu) (1 + b * uu) _ _ _ _ ltac:(lra) ltac:(lra) F CX CY) as [E S].
  split; [exact F|]. split; [|exact S]. lra.
Qed.
Lemma mc_T c X N : mc c X N -> mc c (v3cols X) (mT N).
Proof.
  intros (((F00 & F01 & F02) & (F10 & F11 & F12) & (F20 & F21 & F22)) & E & S). split; [repeat split; assumption|]. split; [|apply SO3_T; exact S].
  replace (msub (mval (v3cols X)) (mT N)) with (mT (msub (mval X) N)); [rewrite frob_mT; exact E|]. destruct N. reflexivity.
Qed.
Lemma mv_fin M a b X y N v : rg 380 M -> 0 <= a <= 100000 -> 0 <= b <= 100000 -> mc a X N -> vc M b y v -> vfin (g_mv A X y).
Proof.
  intros RM Ha Hb HX HY. destruct (mc_upto _ _ _ Ha HX) as ((X00 & X01 & X02) & (X10 & X11 & X12) & (X20 & X21 & X22)). destruct (vc_upto _ _ _ _ RM Hb HY) as (Y0 & Y1 & Y2).
  unfold g_mv, v3map, g_dot3, vfin. cbn [w0 w1 w2 ndot b64_arith]. repeat split; apply (dot3_fin bdot HD); try (apply upto_400; assumption); assumption.
Qed.
Lemma vc_mv M a b X y N v : rg 380 M -> 0 <= a <= 100000 -> 0 <= b <= 100000 -> mc a X N -> vc M b y v -> vc M (a + b + 23) (g_mv A X y) (mvec N v).
Proof.
  intros RM Ha Hb HX HY. pose proof (mv_fin _ _ _ _ _ _ _ RM Ha Hb HX HY) as F. destruct (prod3 a b Ha Hb) as [P1 P2]. destruct (cu a Ha) as [A0 _]. destruct (cu b Hb) as [B0 _]. pose proof (rg_pos _ _ RM) as MP.
  assert (CX : mclose A bval (1 + a * uu) X N) by (split; [|apply HX]; destruct HX as (_ & E & _); lra).
  assert (CY : vclose A bval (1 + b * uu) y v M) by (split; [|apply HY]; destruct HY as (_ & E & _); lra).
  destruct (vclose_mv A bfin bval uu (7 * uu) (2 * uu) (10 * ee) 0 (22 * uu) _ SA (pos_ok 0 (Rle_refl 0)) sg_ok s_ok ee_s (1 + a * uu) (1 + b * uu) _ _ _ _ M ltac:(lra) ltac:(lra) (s_le M (rg_weak 380 390 M ltac:(lia) RM)) F CX CY) as [E S].
  split; [exact F|]. split; [|exact S]. eapply Rle_trans; [exact E|]. replace ((a + b + 23) * (uu * M)) with ((a + b + 23) * uu * M) by ring. apply Rmult_le_compat_r; lra.
Qed.
(* ---- sums and differences ---- *)
Lemma op_vc (f : R -> R -> R) (g : b64 -> b64 -> b64) M a b c x y v w v' : rg 380 M ->
  (forall z t, bfin z -> bfin t -> Rlt_bool (Rabs (rnd (f (bval z) (bval t)))) (bpow radix2 1024) = true -> isv (g z t) (rnd (f (bval z) (bval t)))) ->
  (forall z t, Rabs (f z t) <= Rabs z + Rabs t) ->
  0 <= a <= 100000 -> 0 <= b <= 100000 -> vc M a x v -> vc M b y w ->
  V3 (f (bval (w0 x)) (bval (w0 y))) (f (bval (w1 x)) (bval (w1 y))) (f (bval (w2 x)) (bval (w2 y))) = v' ->
  norm (vsub v' c) <= (a + b) * (uu * M) -> norm c <= M -> vc M (a + b + 2) (v3zip g x y) c.
Proof.
  intros RM HG HF Ha Hb HX HY E D N. destruct (vc_upto _ _ _ _ RM Ha HX) as (X0 & X1 & X2). destruct (vc_upto _ _ _ _ RM Hb HY) as (Y0 & Y1 & Y2).
  assert (G : forall z t, upto 400 z -> upto 400 t -> bfin (g z t) /\ Rabs (bval (g z t) - f (bval z) (bval t)) <= uu * Rabs (f (bval z) (bval t)) + ee).
  { intros z t [Fz Bz] [Ft Bt]. destruct (HG z t Fz Ft) as [F V].
    - apply (PropSub4.rnd_room _ 401); [lia|]. eapply Rle_trans; [apply HF|]. replace 401%Z with (1 + 400)%Z by lia. rewrite bpow_plus. change (bpow radix2 1) with 2. lra.
    - split; [exact F|]. rewrite V. apply rnd_err. }
  destruct (G _ _ X0 Y0) as [F0 E0]. destruct (G _ _ X1 Y1) as [F1 E1]. destruct (G _ _ X2 Y2) as [F2 E2].
  assert (VL : vle (vabs (vsub (vval (v3zip g x y)) v')) (vadd (vscale uu (vabs v')) (vconst ee))).
  { rewrite <- E. unfold vle, vabs, vsub, vadd, vscale, vconst, SpecRound.vval, v3zip. cbn [w0 w1 w2 vx vy vz]. auto. }
  pose proof uu_pos as U. pose proof ee_pos as EP. apply norm_round_err in VL; [|lra|lra]. pose proof (rg_pos _ _ RM) as MP.
  assert (EM : 2 * ee <= 1 / 10 * (uu * M)) by (pose proof (ee_rg 380 M ltac:(lia) RM); assert (0 < uu * M) by (apply Rmult_lt_0_compat; lra); lra).
  destruct (cu a Ha) as [A0 A1]. destruct (cu b Hb) as [B0 B1].
  assert (NV : norm v' <= 11 / 10 * M).
  { replace v' with (vadd c (vsub v' c)) by (destruct c, v'; unfold vadd, vsub; cbn; f_equal; ring). eapply Rle_trans; [apply norm_triangle|]. replace ((a + b) * (uu * M)) with ((a * uu + b * uu) * M) in D by ring.
    assert ((a * uu + b * uu) * M <= 1 / 10 * M) by (apply Rmult_le_compat_r; lra). lra. }
  split; [repeat split; assumption|]. split; [|exact N].
  replace (vsub (vval (v3zip g x y)) c) with (vadd (vsub (vval (v3zip g x y)) v') (vsub v' c)) by (destruct c, v'; unfold vadd, vsub; cbn; f_equal; ring).
  eapply Rle_trans; [apply norm_triangle|]. assert (uu * norm v' <= uu * (11 / 10 * M)) by (apply Rmult_le_compat_l; lra). lra.
Qed.
Lemma vc_add M a b x y v w : rg 380 M -> 0 <= a <= 100000 -> 0 <= b <= 100000 -> vc M a x v -> vc M b y w -> norm (vadd v w) <= M -> vc M (a + b + 2) (g_vadd A x y) (vadd v w).
Proof.
  intros RM Ha Hb HX HY N. apply (op_vc Rplus b_add M a b (vadd v w) x y v w (vadd (vval x) (vval y)) RM); try assumption.
  - intros z t Fz Ft H. exact (add_range z t Fz Ft H).
  - intros. apply Rabs_triang.
  - reflexivity.
  - destruct HX as (_ & EX & _), HY as (_ & EY & _). replace (vsub (vadd (vval x) (vval y)) (vadd v w)) with (vadd (vsub (vval x) v) (vsub (vval y) w)) by (destruct v, w; unfold vadd, vsub; cbn; f_equal; ring).
    eapply Rle_trans; [apply norm_triangle|]. lra.
Qed.
Lemma vc_sub M a b x y v w : rg 380 M -> 0 <= a <= 100000 -> 0 <= b <= 100000 -> vc M a x v -> vc M b y w -> norm (vsub v w) <= M -> vc M (a + b + 2) (g_vsub A x y) (vsub v w).
Proof.
  intros RM Ha Hb HX HY N. apply (op_vc Rminus b_sub M a b (vsub v w) x y v w (vsub (vval x) (vval y)) RM); try assumption.
  - intros z t Fz Ft H. exact (sub_range z t Fz Ft H).
  - intros z t. unfold Rminus. eapply Rle_trans; [apply Rabs_triang|]. rewrite Rabs_Ropp. lra.
  - reflexivity.
  - destruct HX as (_ & EX & _), HY as (_ & EY & _). replace (vsub (vsub (vval x) (vval y)) (vsub v w)) with (vsub (vsub (vval x) v) (vsub (vval y) w)) by (destruct v, w; unfold vadd, vsub; cbn; f_equal; ring).
    eapply Rle_trans; [apply FactsNorm.norm_vsub_le|]. lra.
Qed.
Lemma vc_exact M x : vfin x -> norm (vval x) <= M -> vc M 0 x (vval x).
Proof. intros F N. split; [exact F|]. split; [|exact N]. replace (vsub (vval x) (vval x)) with vzero by (unfold vsub, vzero; f_equal; ring). rewrite norm_vzero. lra. Qed.
(* ---- one axis ---- *)
Lemma axis_vc x k : stored_axis3 x k -> unit3 k /\ vc 1 14 x k.
Proof.
  intros (U & F0 & F1 & F2 & E0 & E1 & E2). split; [exact U|]. split; [repeat split; assumption|]. split; [|rewrite (norm_unit _ U); lra].
  assert (E8 : bpow radix2 (-50) = 8 * uu) by (rewrite uu_val'; cbn; lra). rewrite E8 in *. pose proof uu_pos. rewrite Rmult_1_r.
  apply Rle_trans with (norm (vscale (8 * uu) (V3 1 1 1))).
  - apply norm_mono. unfold vle, vabs, vsub, vscale, SpecRound.vval. cbn [vx vy vz]. rewrite Rmult_1_r. repeat split; assumption.
  - rewrite norm_vscale, Rabs_right by lra. assert (norm (V3 1 1 1) <= 7 / 4). { unfold norm, norm2, LinAlg.dot. cbn [vx vy vz]. apply Rsqr_incr_0_var; [|lra]. rewrite Rsqr_sqrt by lra. unfold Rsqr. lra. }
    assert (8 * uu * norm (V3 1 1 1) <= 8 * uu * (7 / 4)) by (apply Rmult_le_compat_l; lra). lra.
Qed.
Lemma rot_mc x k t : stored_axis3 x k -> bfin t -> mc 1143 (g_rot A x t) (rot k (bval t)).
Proof.
  intros S F. destruct (axis_vc x k S) as [U (V & E & _)]. destruct S as (_ & F0 & F1 & F2 & E0 & E1 & E2). destruct (HT t F) as [FS FC].
  destruct (proj1 HL t FS) as [_ ES]. destruct (proj2 HL t FC) as [_ EC]. rewrite w52 in ES, EC. pose proof (SIN_bound (bval t)) as SB. pose proof (COS_bound (bval t)) as CB. pose proof uu_pos as UP. pose proof uu_val' as UV.
  assert (UB : forall x v, bfin x -> Rabs (bval x - v) <= 1 / 10 -> Rabs v <= 1 -> upto 1 x).
  { intros y v Fy Ey B. split; [exact Fy|]. change (bpow radix2 1) with 2. apply Rabs_le_inv in Ey. apply Rabs_le_inv in B. apply Rabs_le. lra. }
  destruct (entry_le k) as (K0 & K1 & K2). rewrite (norm_unit k U) in *. assert (B50 : bpow radix2 (-50) <= 1 / 10) by (cbn; lra).
  assert (MF : mfin (g_rot A x t)).
  { apply PropR2rot.rot_fin; [exact HD | eapply UB; [assumption | | exact K0]; lra | eapply UB; [assumption | | exact K1]; lra | eapply UB; [assumption | | exact K2]; lra
    | eapply (UB _ (sin (bval t))); [assumption | rewrite UV in ES; lra | apply Rabs_le; lra] | eapply (UB _ (cos (bval t))); [assumption | rewrite UV in EC; lra | apply Rabs_le; lra]]. }
  split; [exact MF|]. split; [|apply rot_SO3; exact U]. rewrite Rmult_1_r in E.
  pose proof PropSub4.ee_small' as EE. assert (MS : 45 * (uu + 7 * uu + 2 * uu + 10 * ee + 14 * uu) <= 1 / 10) by (rewrite UV in *; lra).
  pose proof (rot_err A bfin bval uu (7 * uu) (2 * uu) (10 * ee) (14 * uu) 1 SA (pos_ok (14 * uu) ltac:(lra)) ltac:(lra) MS x k t MF (conj U E)) as RE. lra.
Qed.
End Path.
