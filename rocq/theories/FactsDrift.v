(** One conversion of a stored quaternion, normalised or not, to a matrix and back in binary64. *)
From Coq Require Import Reals ZArith List Bool Lra Lia Psatz.
From Flocq Require Import Core.Core IEEE754.BinarySingleNaN.
From Verif Require Import LinAlg RealAux Py FactsReal FactsLinAlg ModelRot SpecRot FactsRot FactsRot2 FactsNorm ModelFloat ModelFloat4 SpecRound FactsRound FactsFloat FactsB64 FactsExact PropNorm FactsTrack SpecArc SpecArc2 SpecQuat64 FactsAngle FactsSumsq FactsNear PropElbow PropSlerp PropAngle PropR2rot PropRot PropQuat64 FactsTrip.
Import ListNotations.
Open Scope R_scope.
Local Notation near := SpecArc2.near.
Local Notation near_weak := FactsNear.near_weak.
Local Notation near_add := FactsNear.near_add.
Local Notation near_mul := FactsNear.near_mul.

(* ---- q2R ---- *)
Lemma entry_local bdot a s i h i' h' u0 u1 u2 v0 v1 v2 u0' u1' u2' v0' v1' v2' z' : In bdot b_dots -> near (3 * uu) s (2 * a) -> bfin i -> bval i = i' -> 0 <= i' <= 1 -> near 0 h h' ->
  near 0 u0 u0' -> near 0 u1 u1' -> near 0 u2 u2' -> near 0 v0 v0' -> near 0 v1 v1' -> near 0 v2 v2' ->
  Rabs u0' <= 33 / 32 -> Rabs u1' <= 33 / 32 -> Rabs u2' <= 33 / 32 -> Rabs v0' <= 33 / 32 -> Rabs v1' <= 33 / 32 -> Rabs v2' <= 33 / 32 ->
  Rabs a <= 33 / 32 -> Rabs h' <= 33 / 32 -> Rabs (u0' * v0') + Rabs (u1' * v1') + Rabs (u2' * v2') <= 22 / 10 ->
  u0' * v0' + u1' * v1' + u2' * v2' = z' ->
  near (64 * uu) (b_add (b_add i (b_mul s h)) (b_mul (b_lit 2 1) (bdot [u0; u1; u2] [v0; v1; v2]))) (i' + 2 * a * h' + 2 * z').
Proof.
  intros HD Ns Fi Vi Bi Nh U0 U1 U2 V0 V1 V2 A0 A1 A2 B0 B1 B2 Ba Bh Bs Ez. pose proof uu_pos as U. pose proof uu_small as US. destruct two_val as [F2 V2'].
  assert (Nz : near (17 * uu) (bdot [u0; u1; u2] [v0; v1; v2]) z').
  { rewrite <- Ez. eapply near_weak; [|apply (near_dot3 bdot 0 0 0 (22 / 10)); try eassumption; lra]. lra. }
  assert (Bz : Rabs z' <= 22 / 10). { rewrite <- Ez. eapply Rle_trans; [apply Rabs_triang|]. pose proof (Rabs_triang (u0' * v0') (u1' * v1')). lra. }
  pose proof (Rabs_pos h') as Ph. pose proof (Rabs_pos a) as Pa. assert (A2a : Rabs (2 * a) = 2 * Rabs a) by (rewrite Rabs_mult, Rabs_right; lra).
  assert (Bp : Rabs (2 * a * h') <= 22 / 10) by (rewrite Rabs_mult, A2a; nra). assert (uh : 0 <= uu * Rabs h' <= 33 / 32 * uu) by nra.
  pose proof (near_mul _ _ (23 / 10) _ _ _ _ Ns Nh ltac:(rewrite A2a; lra) ltac:(lra)) as X1.
  assert (Y1 : near (6 * uu) (b_mul s h) (2 * a * h')) by (eapply near_weak; [|exact X1]; lra).
  assert (Ni : near 0 i i') by (apply near_exact; [lra | exact Fi | exact Vi]). assert (Bi' : Rabs i' <= 1) by (apply Rabs_le; lra).
  pose proof (near_op true _ _ 1 (22 / 10) _ _ _ _ Ni Y1 Bi' Bp ltac:(lra)) as X2. cbn [op sg] in X2.
  assert (Y2 : near (10 * uu) (b_add i (b_mul s h)) (i' + 2 * a * h')) by (eapply near_weak; [|exact X2]; nra).
  pose proof (near_mul 0 _ (45 / 10) _ _ _ _ (near_exact 0 _ _ (Rle_refl 0) F2 V2') Nz ltac:(rewrite (Rabs_mult 2 z'), (Rabs_right 2) by lra; lra) ltac:(lra)) as X3. rewrite (Rabs_right 2) in X3 by lra.
  assert (Y3 : near (39 * uu) (b_mul (b_lit 2 1) (bdot [u0; u1; u2] [v0; v1; v2])) (2 * z')) by (eapply near_weak; [|exact X3]; lra).
  assert (C1 : Rabs (i' + 2 * a * h') <= 32 / 10) by (eapply Rle_trans; [apply Rabs_triang|]; lra). assert (C2 : Rabs (2 * z') <= 44 / 10) by (rewrite Rabs_mult, (Rabs_right 2); lra).
  pose proof (near_op true _ _ (32 / 10) (44 / 10) _ _ _ _ Y2 Y3 C1 C2 ltac:(lra)) as X4. cbn [op sg] in X4. eapply near_weak; [|exact X4]. nra.
Qed.
Lemma q2R_local L bdot (x : v4 b64) q : In bdot b_dots -> stored_quat 0 x q -> Rabs (q0 q) <= 33 / 32 -> Rabs (q1 q) <= 33 / 32 -> Rabs (q2 q) <= 33 / 32 -> Rabs (q3 q) <= 33 / 32 ->
  stored_matrix (64 * uu) (g_q2R (b64_arith L bdot) x) (q2R q).
Proof.
  intros HD (N0 & N1 & N2 & N3) B0 B1 B2 B3. pose proof uu_pos as U. pose proof uu_small as US.
  destruct x as [x0 x1 x2 x3]. cbn [y0 y1 y2 y3] in *.
  destruct two_val as [F2 V2]. destruct one_val as [F1 V1]. destruct zero_val as [F0 V0].
  destruct q as [a b c e]. cbn [q0 q1 q2 q3] in *.
  assert (Ns : near (3 * uu) (b_mul (b_lit 2 1) x0) (2 * a)).
  { eapply near_weak; [|apply (near_mul 0 _ (22 / 10) _ _ _ _ (near_exact 0 _ _ (Rle_refl 0) F2 V2) N0)]; rewrite ?(Rabs_right 2) by lra; rewrite ?Rabs_mult, ?(Rabs_right 2) by lra; lra. }
  assert (NZ : near 0 (b_lit 0 1) 0) by (apply near_exact; [lra | exact F0 | exact V0]). assert (BZ : Rabs 0 <= 33 / 32) by (rewrite Rabs_R0; lra).
  pose proof (near_opp _ _ _ N1) as M1. pose proof (near_opp _ _ _ N2) as M2. pose proof (near_opp _ _ _ N3) as M3'.
  assert (C1 : Rabs (- b) <= 33 / 32) by (rewrite Rabs_Ropp; exact B1). assert (C2 : Rabs (- c) <= 33 / 32) by (rewrite Rabs_Ropp; exact B2). assert (C3 : Rabs (- e) <= 33 / 32) by (rewrite Rabs_Ropp; exact B3).
  assert (PR : forall u v, Rabs u <= 33 / 32 -> Rabs v <= 33 / 32 -> Rabs (u * v) <= 107 / 100). { intros u v H K. rewrite Rabs_mult. pose proof (Rabs_pos u). pose proof (Rabs_pos v). nra. }
  assert (ZL : forall u, 0 * u = 0) by (intros; ring). assert (ZR : forall u, u * 0 = 0) by (intros; ring).
  unfold g_q2R, stored_matrix, g_mm, g_I3, g_hat, v3zip, v3map, v3cols, g_dot3. cbn [y0 y1 y2 y3 w0 w1 w2].
  change (nzero (b64_arith L bdot)) with (b_lit 0 1). change (none1 (b64_arith L bdot)) with (b_lit 1 1). cbn [nneg nadd nmul nlit ndot b64_arith num]. cbv beta iota delta [w0 w1 w2 v3map].
  assert (EQ : q2R (Q4 a b c e) = M3 (1 + 2 * a * 0 + 2 * (- (c * c) - e * e)) (0 + 2 * a * (- e) + 2 * (b * c)) (0 + 2 * a * c + 2 * (b * e))
     (0 + 2 * a * e + 2 * (b * c)) (1 + 2 * a * 0 + 2 * (- (b * b) - e * e)) (0 + 2 * a * (- b) + 2 * (c * e))
     (0 + 2 * a * (- c) + 2 * (b * e)) (0 + 2 * a * b + 2 * (c * e)) (1 + 2 * a * 0 + 2 * (- (b * b) - c * c))) by (rot_unfold; f_equal; ring).
  rewrite EQ. cbn [m00 m01 m02 m10 m11 m12 m20 m21 m22].
  split; [|split]; (split; [|split]);
    (eapply (entry_local bdot a); [exact HD | exact Ns | first [exact F1 | exact F0] | first [exact V1 | exact V0] | lra |
      eassumption | eassumption | eassumption | eassumption | eassumption | eassumption | eassumption | eassumption | eassumption | eassumption | eassumption | eassumption | assumption |
      exact B0 | eassumption | rewrite ?ZL, ?ZR, ?Rabs_R0 | ring]).
  all: repeat match goal with |- context [Rabs (?u * ?v)] => let H := fresh in assert (H : Rabs (u * v) <= 107 / 100) by (apply PR; assumption); generalize dependent (Rabs (u * v)); intros end; lra.
Qed.

(* ---- R2q ---- *)
Section R2qLocal.
Context (L : libm) (bdot : list b64 -> list b64 -> b64) (M : m3 b64) (q : quat) (e : R).
Context (He : 0 <= e <= 1 / 1024) (Hn : 63 / 64 <= qdot q q <= 65 / 64) (HM : stored_matrix e M (q2R q)).
Lemma local_entries : let A := q2R q in Rabs (m00 A) <= 33 / 32 /\ Rabs (m11 A) <= 33 / 32 /\ Rabs (m22 A) <= 33 / 32 /\
  Rabs (m01 A) <= 9 / 8 /\ Rabs (m02 A) <= 9 / 8 /\ Rabs (m10 A) <= 9 / 8 /\ Rabs (m12 A) <= 9 / 8 /\ Rabs (m20 A) <= 9 / 8 /\ Rabs (m21 A) <= 9 / 8.
Proof.
  clear HM. destruct q as [a b c d]. cbv zeta. unfold qdot in Hn. cbn [q0 q1 q2 q3] in Hn. rot_unfold.
  assert (S0 : forall u, 0 <= u * u) by (intros; nra). pose proof (S0 a). pose proof (S0 b). pose proof (S0 c). pose proof (S0 d).
  pose proof (S0 (a - b)). pose proof (S0 (a + b)). pose proof (S0 (a - c)). pose proof (S0 (a + c)). pose proof (S0 (a - d)). pose proof (S0 (a + d)).
  pose proof (S0 (b - c)). pose proof (S0 (b + c)). pose proof (S0 (b - d)). pose proof (S0 (b + d)). pose proof (S0 (c - d)). pose proof (S0 (c + d)).
  repeat split; apply Rabs_le; lra.
Qed.
Lemma R2q_first p : 0 < p -> q1 q * q1 q + q2 q * q2 q + q3 q * q3 q = 1 - p * p -> 3 / 8 <= p * p ->
  exists x, g_R2q (b64_arith L bdot) M = Ok x /\ stored_quat (3 * e + 18 * uu) x (Q4 p (q0 q * q1 q / p) (q0 q * q2 q / p) (q0 q * q3 q / p)).
Proof.
  intros P EP LP. destruct local_entries as (B00 & B11 & B22 & B01 & B02 & B10 & B12 & B20 & B21). cbv zeta in *.
  destruct (trip_entries q) as (T0 & _ & _ & _ & E01 & E02 & E03 & _). cbv zeta in *.
  destruct HM as ((N00 & N01 & N02) & (N10 & N11 & N12) & (N20 & N21 & N22)). pose proof uu_pos as UP. pose proof uu_small as US.
  assert (S0 : forall u, 0 <= u * u) by (intros; nra). pose proof (S0 (q1 q)) as S1. pose proof (S0 (q2 q)) as S2. pose proof (S0 (q3 q)) as S3.
  assert (HP : 0 < p <= 33 / 32) by nra. assert (LQ : 92 / 100 <= 4 * (p * p)) by lra.
  assert (QB : forall v, v * v <= 1 - p * p -> Rabs (q0 q * v / p) <= 33 / 32).
  { intros v V. unfold qdot in Hn. assert (A2 : q0 q * q0 q <= p * p + 1 / 64) by lra.
    assert (W : (q0 q * v / p) * (q0 q * v / p) <= 1).
    { replace ((q0 q * v / p) * (q0 q * v / p)) with ((q0 q * q0 q) * (v * v) / (p * p)) by (field; lra). apply Rmult_le_reg_r with (p * p); [lra|].
      unfold Rdiv. rewrite Rmult_assoc, Rinv_l, Rmult_1_r by lra. pose proof (S0 v). pose proof (S0 (q0 q)). nra. }
    apply Rabs_le. nra. }
  destruct M as [[r00 r01 r02] [r10 r11 r12] [r20 r21 r22]]. cbn [w0 w1 w2] in *.
  destruct one_val as [F1 V1]. pose proof (near_exact 0 _ _ (Rle_refl 0) F1 V1) as N1. assert (BO : Rabs 1 <= 33 / 32) by (rewrite Rabs_right; lra).
  destruct zero_val as [F0 V0].
  unfold g_R2q. cbn [w0 w1 w2]. unfold g_math_sqrt.
  change (nzero (b64_arith L bdot)) with (b_lit 0 1). change (none1 (b64_arith L bdot)) with (b_lit 1 1). cbn [nlt nadd nsub nmul ndiv nsqrt nlit b64_arith].
  pose proof (near_op true _ _ _ _ _ _ _ _ N00 N11 B00 B11 ltac:(lra)) as T1. cbn [op sg] in T1.
  assert (BT : Rabs (m00 (q2R q) + m11 (q2R q)) <= 21 / 10) by (eapply Rle_trans; [apply Rabs_triang|]; lra).
  assert (T1' : near (2 * e + 3 * uu) (b_add r00 r11) (m00 (q2R q) + m11 (q2R q))) by (eapply near_weak; [|exact T1]; nra).
  pose proof (near_op true _ _ _ _ _ _ _ _ T1' N22 BT B22 ltac:(lra)) as T2. cbn [op sg] in T2. assert (T2' : near (3 * e + 7 * uu) (b_add (b_add r00 r11) r22) (m00 (q2R q) + m11 (q2R q) + m22 (q2R q))) by (eapply near_weak; [|exact T2]; nra).
  destruct T2' as [FT ET]. apply Rabs_le_inv in ET.
  rewrite (proj2 (b_lt_val _ _ F0 FT)) by lra.
  assert (He' : 0 <= e <= 1 / 64) by lra.
  pose proof (chain true true true e e e 0 e _ _ _ _ _ _ _ _ N00 N11 N22 N1 B00 B11 B22 BO ltac:(lra) ltac:(lra) ltac:(lra) ltac:(lra) ltac:(lra) ltac:(lra)) as X. cbn [op sg] in X.
  replace (m00 (q2R q) + m11 (q2R q) + m22 (q2R q) + 1) with (4 * (p * p)) in X by lra.
  destruct (core_root e p _ He' HP LQ X) as [-> _]. cbn [bind]. eexists. split; [reflexivity|].
  pose proof (pair false e _ _ _ _ N21 N12 B21 B12 He') as Y1. pose proof (pair false e _ _ _ _ N02 N20 B02 B20 He') as Y2. pose proof (pair false e _ _ _ _ N10 N01 B10 B01 He') as Y3. cbn [op sg] in Y1, Y2, Y3.
  replace (m21 (q2R q) + - m12 (q2R q)) with (4 * (p * (q0 q * q1 q / p))) in Y1 by (rewrite <- E01; field; lra).
  replace (m02 (q2R q) + - m20 (q2R q)) with (4 * (p * (q0 q * q2 q / p))) in Y2 by (rewrite <- E02; field; lra).
  replace (m10 (q2R q) + - m01 (q2R q)) with (4 * (p * (q0 q * q3 q / p))) in Y3 by (rewrite <- E03; field; lra).
  unfold stored_quat. cbn [y0 y1 y2 y3 q0 q1 q2 q3].
  split; [eapply near_weak; [|apply (core_p e p); assumption]; lra|]. split; [|split]; (apply (core_q e p); [assumption | assumption | assumption | assumption | assumption | apply QB; lra]).
Qed.
Lemma R2q_other : 97 / 128 <= q1 q * q1 q + q2 q * q2 q + q3 q * q3 q ->
  exists x, g_R2q (b64_arith L bdot) M = Ok x /\ (stored_quat (3 * e + 18 * uu) x q \/ stored_quat (3 * e + 18 * uu) x (qneg q)).
Proof.
  intros LV. destruct local_entries as (B00 & B11 & B22 & B01 & B02 & B10 & B12 & B20 & B21). cbv zeta in *.
  destruct (trip_entries q) as (T0 & D1 & D2 & D3 & _). cbv zeta in *.
  pose proof uu_pos as UP. pose proof uu_small as US.
  assert (S0 : forall u, 0 <= u * u) by (intros; nra). pose proof (S0 (q0 q)) as Z0. pose proof (S0 (q1 q)) as Z1. pose proof (S0 (q2 q)) as Z2. pose proof (S0 (q3 q)) as Z3.
  assert (G : exists x r, (r = q \/ r = qneg q) /\ g_R2q (b64_arith L bdot) M = Ok x /\ stored_quat (3 * e + 18 * uu) x r).
  2: { destruct G as (x & r & [-> | ->] & E & S); exists x; auto. }
  assert (SG : forall f : quat -> R, f (qneg q) = - f q -> exists r, (r = q \/ r = qneg q) /\ q2R r = q2R q /\ f r = Rabs (f q) /\ (Rabs (q0 r) <= 33 / 32 /\ Rabs (q1 r) <= 33 / 32 /\ Rabs (q2 r) <= 33 / 32 /\ Rabs (q3 r) <= 33 / 32)).
  { assert (BB : Rabs (q0 q) <= 33 / 32 /\ Rabs (q1 q) <= 33 / 32 /\ Rabs (q2 q) <= 33 / 32 /\ Rabs (q3 q) <= 33 / 32) by (unfold qdot in Hn; repeat split; apply Rabs_le; nra).
    intros f F. unfold Rabs at 1. destruct (Rcase_abs (f q)).
    - exists (qneg q). split; [auto|]. split; [apply q2R_neg|]. split; [exact F|]. unfold qneg. cbn [q0 q1 q2 q3]. rewrite !Rabs_Ropp. exact BB.
    - exists q. auto. }
  pose proof (SG q1 eq_refl) as W1. pose proof (SG q2 eq_refl) as W2. pose proof (SG q3 eq_refl) as W3'. clear SG.
  destruct HM as ((N00 & N01 & N02) & (N10 & N11 & N12) & (N20 & N21 & N22)).
  destruct M as [[r00 r01 r02] [r10 r11 r12] [r20 r21 r22]]. cbn [w0 w1 w2] in *.
  destruct one_val as [F1 V1]. pose proof (near_exact 0 _ _ (Rle_refl 0) F1 V1) as N1. assert (BO : Rabs 1 <= 33 / 32) by (rewrite Rabs_right; lra).
  destruct zero_val as [F0 V0]. assert (He' : 0 <= e <= 1 / 64) by lra.
  unfold g_R2q. cbn [w0 w1 w2]. unfold g_math_sqrt.
  change (nzero (b64_arith L bdot)) with (b_lit 0 1). change (none1 (b64_arith L bdot)) with (b_lit 1 1). cbn [nlt nadd nsub nmul ndiv nsqrt nlit b64_arith].
  pose proof (near_op true _ _ _ _ _ _ _ _ N00 N11 B00 B11 ltac:(lra)) as T1. cbn [op sg] in T1.
  assert (BT : Rabs (m00 (q2R q) + m11 (q2R q)) <= 21 / 10) by (eapply Rle_trans; [apply Rabs_triang|]; lra).
  assert (T1' : near (2 * e + 3 * uu) (b_add r00 r11) (m00 (q2R q) + m11 (q2R q))) by (eapply near_weak; [|exact T1]; nra).
  pose proof (near_op true _ _ _ _ _ _ _ _ T1' N22 BT B22 ltac:(lra)) as T2. cbn [op sg] in T2. assert (T2' : near (3 * e + 7 * uu) (b_add (b_add r00 r11) r22) (m00 (q2R q) + m11 (q2R q) + m22 (q2R q))) by (eapply near_weak; [|exact T2]; nra).
  destruct T2' as [FT ET]. apply Rabs_le_inv in ET.
  assert (SQ : forall x, Rabs x * Rabs x = x * x) by (intros; rewrite <- Rabs_mult; apply Rabs_right; nra).
  assert (DIF : forall x y v w, near e x v -> near e y w -> (b_lt x y = true -> v <= w + 2 * e) /\ (b_lt x y = false -> w <= v + 2 * e)).
  { intros x y v w [Fx Ex] [Fy Ey]. apply Rabs_le_inv in Ex. apply Rabs_le_inv in Ey. split; intros B.
    - apply (b_lt_val _ _ Fx Fy) in B. lra.
    - destruct (Rlt_le_dec (bval x) (bval y)) as [C|C]; [apply (b_lt_val _ _ Fx Fy) in C; congruence | lra]. }
  assert (POS : forall x, 92 / 100 <= 4 * (x * x) -> 0 < Rabs x). { intros x H. apply Rabs_pos_lt. intros ->. lra. }
  destruct (b_lt (b_lit 0 1) (b_add (b_add r00 r11) r22)) eqn:C0.
  { exfalso. apply (b_lt_val _ _ F0 FT) in C0. lra. }
  destruct (b_lt r11 r00 && b_lt r22 r00)%bool eqn:C1.
  - apply andb_prop in C1 as [C1 C2]. apply (DIF _ _ _ _ N11 N00) in C1. apply (DIF _ _ _ _ N22 N00) in C2.
    assert (LQ : 92 / 100 <= 4 * (q1 q * q1 q)) by lra. pose proof (POS _ LQ) as PQ.
    destruct W1 as (r & Er & Eq & Aq & Q0 & Q1 & Q2 & Q3). rewrite <- (SQ (q1 q)), <- Aq in LQ. rewrite <- Aq in PQ.
    destruct (trip_entries r) as (_ & E0 & _ & _ & E01 & E02 & E03 & E12 & E13 & E23). cbv zeta in *. rewrite Eq in *.
    assert (HP : 0 < q1 r <= 33 / 32) by (apply Rabs_le_inv in Q1; lra).
    pose proof (chain true false false 0 e e e e _ _ _ _ _ _ _ _ N1 N00 N11 N22 BO B00 B11 B22 ltac:(lra) ltac:(lra) ltac:(lra) ltac:(lra) ltac:(lra) ltac:(lra)) as X. cbn [op sg] in X. rewrite <- E0 in X.
    destruct (core_root e (q1 r) _ He' HP LQ X) as [-> _]. cbn [bind]. eexists. exists r. split; [exact Er|]. split; [reflexivity|].
    pose proof (pair false e _ _ _ _ N21 N12 B21 B12 He') as Y1. pose proof (pair true e _ _ _ _ N01 N10 B01 B10 He') as Y2. pose proof (pair true e _ _ _ _ N02 N20 B02 B20 He') as Y3. cbn [op sg] in Y1, Y2, Y3.
    rewrite <- E01, (Rmult_comm (q0 r)) in Y1. rewrite <- E12 in Y2. rewrite <- E13 in Y3.
    split; [|split; [eapply near_weak; [|apply (core_p e (q1 r)); assumption]; lra | split]]; apply (core_q e (q1 r)); assumption.
  - assert (CX : m00 (q2R q) <= m11 (q2R q) + 2 * e \/ m00 (q2R q) <= m22 (q2R q) + 2 * e).
    { apply andb_false_iff in C1 as [C1|C1]; [left; apply (DIF _ _ _ _ N11 N00) in C1 | right; apply (DIF _ _ _ _ N22 N00) in C1]; exact C1. }
    destruct (b_lt r22 r11) eqn:C2.
    + apply (DIF _ _ _ _ N22 N11) in C2.
      assert (LQ : 92 / 100 <= 4 * (q2 q * q2 q)) by lra. pose proof (POS _ LQ) as PQ.
      destruct W2 as (r & Er & Eq & Aq & Q0 & Q1 & Q2 & Q3). rewrite <- (SQ (q2 q)), <- Aq in LQ. rewrite <- Aq in PQ.
      destruct (trip_entries r) as (_ & _ & E0 & _ & E01 & E02 & E03 & E12 & E13 & E23). cbv zeta in *. rewrite Eq in *.
      assert (HP : 0 < q2 r <= 33 / 32) by (apply Rabs_le_inv in Q2; lra).
      pose proof (chain false true false 0 e e e e _ _ _ _ _ _ _ _ N1 N00 N11 N22 BO B00 B11 B22 ltac:(lra) ltac:(lra) ltac:(lra) ltac:(lra) ltac:(lra) ltac:(lra)) as X. cbn [op sg] in X. rewrite <- E0 in X.
      destruct (core_root e (q2 r) _ He' HP LQ X) as [-> _]. cbn [bind]. eexists. exists r. split; [exact Er|]. split; [reflexivity|].
      pose proof (pair false e _ _ _ _ N02 N20 B02 B20 He') as Y1. pose proof (pair true e _ _ _ _ N01 N10 B01 B10 He') as Y2. pose proof (pair true e _ _ _ _ N12 N21 B12 B21 He') as Y3. cbn [op sg] in Y1, Y2, Y3.
      rewrite <- E02, (Rmult_comm (q0 r)) in Y1. rewrite <- E12, (Rmult_comm (q1 r)) in Y2. rewrite <- E23 in Y3.
      split; [|split; [|split; [eapply near_weak; [|apply (core_p e (q2 r)); assumption]; lra |]]]; apply (core_q e (q2 r)); assumption.
    + apply (DIF _ _ _ _ N22 N11) in C2.
      assert (LQ : 92 / 100 <= 4 * (q3 q * q3 q)) by lra. pose proof (POS _ LQ) as PQ.
      destruct W3' as (r & Er & Eq & Aq & Q0 & Q1 & Q2 & Q3). rewrite <- (SQ (q3 q)), <- Aq in LQ. rewrite <- Aq in PQ.
      destruct (trip_entries r) as (_ & _ & _ & E0 & E01 & E02 & E03 & E12 & E13 & E23). cbv zeta in *. rewrite Eq in *.
      assert (HP : 0 < q3 r <= 33 / 32) by (apply Rabs_le_inv in Q3; lra).
      pose proof (chain false false true 0 e e e e _ _ _ _ _ _ _ _ N1 N00 N11 N22 BO B00 B11 B22 ltac:(lra) ltac:(lra) ltac:(lra) ltac:(lra) ltac:(lra) ltac:(lra)) as X. cbn [op sg] in X. rewrite <- E0 in X.
      destruct (core_root e (q3 r) _ He' HP LQ X) as [-> _]. cbn [bind]. eexists. exists r. split; [exact Er|]. split; [reflexivity|].
      pose proof (pair false e _ _ _ _ N10 N01 B10 B01 He') as Y1. pose proof (pair true e _ _ _ _ N02 N20 B02 B20 He') as Y2. pose proof (pair true e _ _ _ _ N12 N21 B12 B21 He') as Y3. cbn [op sg] in Y1, Y2, Y3.
      rewrite <- E03, (Rmult_comm (q0 r)) in Y1. rewrite <- E13, (Rmult_comm (q1 r)) in Y2. rewrite <- E23, (Rmult_comm (q2 r)) in Y3.
      split; [|split; [|split; [|eapply near_weak; [|apply (core_p e (q3 r)); assumption]; lra]]]; apply (core_q e (q3 r)); assumption.
Qed.
End R2qLocal.
