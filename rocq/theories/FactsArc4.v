(** Points on the arc between two unit quaternions, for slerp in binary64. *)
From Coq Require Import Reals ZArith List Lra Lia Psatz.
From Flocq Require Import Core.Core IEEE754.BinarySingleNaN.
From Verif Require Import LinAlg RealAux Py FactsReal ModelFloat FactsB64 FactsExact PropB64 PropPi PropSlerp SpecSlerp64 FactsAngle.
Import ListNotations.
Open Scope R_scope.

Lemma sin_lb16 y : 0 <= y <= 1.6 -> 0.57 * y <= sin y.
Proof.
  intros H. assert (y <= PI) by (pose proof PI2_3_2; lra).
  destruct (SIN y) as [K _]; try lra. eapply Rle_trans; [|exact K].
  unfold sin_lb, sin_approx, sin_term. cbn [sum_f_R0 Nat.mul Nat.add pow].
  replace (INR (fact 1)) with 1 by (cbn; lra).
  replace (INR (fact 3)) with 6 by (cbn; lra).
  replace (INR (fact 5)) with 120 by (cbn; lra).
  replace (INR (fact 7)) with 5040 by (rewrite INR_IZR_INZ; apply f_equal; reflexivity).
  assert (Y : 0 <= y * y <= 2.56) by nra.
  set (z := y * y) in *.
  match goal with |- _ <= ?e => replace e with (y * (1 - z / 6 + z * z / 120 * (1 - z / 42))) by (unfold z; field) end.
  assert (0 <= z * z / 120 * (1 - z / 42)) by (apply Rmult_le_pos; [|lra]; apply Rmult_le_pos; [|lra]; apply Rmult_le_pos; lra).
  rewrite Rmult_comm. apply Rmult_le_compat_l; lra.
Qed.
Lemma sin_ub x : 0 <= x -> sin x <= x.
Proof. intros [P | <-]; [left; apply sin_lt_x; exact P | rewrite sin_0; lra]. Qed.

(* ---- the weight sin(t x) / sin x, against cos x ---- *)
Section Weight.
Context (t : R) (T : 0 <= t <= 1).
Definition wnum (x : R) : R := t * cos (t * x) * sin x - sin (t * x) * cos x.
Lemma d_st x : derivable_pt_lim (fun y => sin (t * y)) x (t * cos (t * x)).
Proof.
  replace (t * cos (t * x)) with (cos (t * x) * (t * 1)) by ring.
  apply (derivable_pt_lim_comp (fun y => t * y) sin x (t * 1) (cos (t * x))); [|apply derivable_pt_lim_sin].
  apply (derivable_pt_lim_scal id t x 1). apply derivable_pt_lim_id.
Qed.
Lemma d_ct x : derivable_pt_lim (fun y => cos (t * y)) x (- t * sin (t * x)).
Proof.
  replace (- t * sin (t * x)) with (- sin (t * x) * (t * 1)) by ring.
  apply (derivable_pt_lim_comp (fun y => t * y) cos x (t * 1) (- sin (t * x))); [|apply derivable_pt_lim_cos].
  apply (derivable_pt_lim_scal id t x 1). apply derivable_pt_lim_id.
Qed.
Lemma d_wnum x : derivable_pt_lim wnum x ((1 - t * t) * (sin (t * x) * sin x)).
Proof.
  unfold wnum. replace ((1 - t * t) * (sin (t * x) * sin x)) with ((t * (- t * sin (t * x)) * sin x + t * cos (t * x) * cos x) - (t * cos (t * x) * cos x + sin (t * x) * - sin x)) by ring.
  apply (derivable_pt_lim_minus (fun x => t * cos (t * x) * sin x) (fun x => sin (t * x) * cos x)).
  - apply (derivable_pt_lim_mult (fun x => t * cos (t * x)) sin); [|apply derivable_pt_lim_sin]. apply (derivable_pt_lim_scal (fun x => cos (t * x)) t). apply d_ct.
  - apply (derivable_pt_lim_mult (fun x => sin (t * x)) cos); [apply d_st|apply derivable_pt_lim_cos].
Qed.
Lemma d_cube x : derivable_pt_lim (fun y => y * y * y / 6) x (x * x / 2).
Proof.
  replace (x * x / 2) with (((1 * x + x * 1) * x + x * x * 1) * / 6) by field.
  replace (((1 * x + x * 1) * x + x * x * 1) * / 6) with (((1 * x + x * 1) * x + x * x * 1) * / 6 + x * x * x * 0) by ring.
  unfold Rdiv. apply (derivable_pt_lim_mult (fun y => y * y * y) (fun _ => / 6)); [|apply derivable_pt_lim_const].
  apply (derivable_pt_lim_mult (fun y => y * y) (fun y => y)); [|apply derivable_pt_lim_id]. apply (derivable_pt_lim_mult (fun y => y) (fun y => y)); apply derivable_pt_lim_id.
Qed.
Lemma st_range x : 0 <= x <= 1.6 -> 0 <= sin (t * x) <= t * x.
Proof.
  intros H. pose proof PI2_3_2. assert (0 <= t * x) by (apply Rmult_le_pos; lra). assert (t * x <= 1 * x) by (apply Rmult_le_compat_r; lra).
  split; [apply sin_ge_0; lra|apply sin_ub; lra].
Qed.
Lemma wnum_range x : 0 < x <= 1.6 -> 0 <= wnum x <= x * x * x / 6.
Proof.
  intros H. pose proof PI2_3_2. assert (Z : wnum 0 = 0) by (unfold wnum; rewrite Rmult_0_r, sin_0; ring). split.
  - destruct (MVT_cor2 wnum (fun x => (1 - t * t) * (sin (t * x) * sin x)) 0 x) as (c & E & C); [lra|intros; apply d_wnum|]. rewrite Z in E. replace (wnum x) with (wnum x - 0) by ring. rewrite E.
    pose proof (st_range c ltac:(lra)). assert (0 <= sin c) by (apply sin_ge_0; lra). assert (t * t <= 1 * 1) by (apply Rmult_le_compat; lra). apply Rmult_le_pos; [|lra]. apply Rmult_le_pos; [lra|]. apply Rmult_le_pos; lra.
  - destruct (MVT_cor2 (fun y => y * y * y / 6 - wnum y) (fun y => y * y / 2 - (1 - t * t) * (sin (t * y) * sin y)) 0 x) as (c & E & C); [lra|intros c _; apply (derivable_pt_lim_minus (fun y => y * y * y / 6) wnum); [apply d_cube|apply d_wnum]|].
    cbv beta in E. rewrite Z in E. assert (0 <= (c * c / 2 - (1 - t * t) * (sin (t * c) * sin c)) * (x - 0)); [|lra]. apply Rmult_le_pos; [|lra].
    pose proof (st_range c ltac:(lra)) as [S0 S1]. assert (0 <= sin c) by (apply sin_ge_0; lra). pose proof (sin_ub c ltac:(lra)).
    assert (TT : t * t <= 1 * 1) by (apply Rmult_le_compat; lra). assert (P : sin (t * c) * sin c <= t * c * c) by (apply Rmult_le_compat; lra).
    assert (Q : (1 - t * t) * (sin (t * c) * sin c) <= (1 - t * t) * (t * c * c)) by (apply Rmult_le_compat_l; lra).
    assert (K : (1 - t * t) * t <= 1 / 2). { assert (0 <= (t + 6 / 5) * ((t - 3 / 5) * (t - 3 / 5))) by (apply Rmult_le_pos; [lra|apply Rle_0_sqr]). lra. }
    assert (CC : 0 <= c * c) by (apply Rmult_le_pos; lra). replace ((1 - t * t) * (t * c * c)) with ((1 - t * t) * t * (c * c)) in Q by ring.
    assert ((1 - t * t) * t * (c * c) <= 1 / 2 * (c * c)) by (apply Rmult_le_compat_r; lra). lra.
Qed.
Definition wt (x : R) : R := sin (t * x) / sin x.
Lemma d_wt x : 0 < sin x -> derivable_pt_lim wt x (wnum x / (sin x * sin x)).
Proof.
  intros P. unfold wt, wnum. replace ((t * cos (t * x) * sin x - sin (t * x) * cos x) / (sin x * sin x)) with ((t * cos (t * x) * sin x - cos x * sin (t * x)) / Rsqr (sin x)) by (unfold Rsqr; field; lra).
  apply (derivable_pt_lim_div (fun y => sin (t * y)) sin); [apply d_st|apply derivable_pt_lim_sin|lra].
Qed.
Lemma wt_step x y : 0 < x -> x < y -> y <= 1.6 -> 0 <= wt y - wt x <= cos x - cos y.
Proof.
  intros H1 H2 H3. pose proof PI2_3_2. assert (SP : forall c, 0 < c <= 1.6 -> 0 < sin c) by (intros c Hc; apply sin_gt_0; lra). split.
  - destruct (MVT_cor2 wt (fun x => wnum x / (sin x * sin x)) x y) as (c & E & C); [lra|intros c Hc; apply d_wt; apply SP; lra|]. rewrite E.
    pose proof (wnum_range c ltac:(lra)). pose proof (SP c ltac:(lra)). apply Rmult_le_pos; [|lra]. apply Rmult_le_pos; [lra|]. left. apply Rinv_0_lt_compat. apply Rmult_lt_0_compat; lra.
  - destruct (MVT_cor2 (fun x => wt x + cos x) (fun x => wnum x / (sin x * sin x) + - sin x) x y) as (c & E & C); [lra|intros c Hc; apply (derivable_pt_lim_plus wt cos); [apply d_wt; apply SP; lra|apply derivable_pt_lim_cos]|]. cbv beta in E.
    assert (K : wnum c / (sin c * sin c) <= sin c).
    { pose proof (wnum_range c ltac:(lra)) as [_ W]. pose proof (SP c ltac:(lra)) as S. pose proof (sin_lb16 c ltac:(lra)) as LB. apply (Rmult_le_reg_r (sin c * sin c)); [apply Rmult_lt_0_compat; lra|]. replace (wnum c / (sin c * sin c) * (sin c * sin c)) with (wnum c) by (field; lra).
      assert (L2 : 0.57 * c * (0.57 * c) <= sin c * sin c) by (apply Rmult_le_compat; lra). assert (L3 : 0.57 * c * (0.57 * c * (0.57 * c)) <= sin c * (sin c * sin c)) by (apply Rmult_le_compat; try lra; apply Rmult_le_pos; lra).
      assert (0 <= c * c * c) by (apply Rmult_le_pos; [apply Rmult_le_pos|]; lra). lra. }
    assert ((wnum c / (sin c * sin c) + - sin c) * (y - x) <= 0 * (y - x)) by (apply Rmult_le_compat_r; lra). lra.
Qed.
Lemma wt_lip x y : 0 < x <= 1.6 -> 0 < y <= 1.6 -> Rabs (wt x - wt y) <= Rabs (cos x - cos y).
Proof.
  intros Hx Hy. destruct (Rtotal_order x y) as [L | [-> | L]].
  - pose proof (wt_step x y ltac:(lra) L ltac:(lra)) as [A B]. rewrite (Rabs_left1 (wt x - wt y)) by lra. rewrite Rabs_right by lra. lra.
  - rewrite !Rminus_diag_eq by reflexivity. lra.
  - pose proof (wt_step y x ltac:(lra) L ltac:(lra)) as [A B]. rewrite (Rabs_right (wt x - wt y)) by lra. rewrite Rabs_left1 by lra. lra.
Qed.
Lemma wt_quarter x : 0 < x <= PI / 2 -> 0 <= wt x <= 1.
Proof.
  intros H. pose proof PI2_3_2. assert (S : 0 < sin x) by (apply sin_gt_0; lra). unfold wt. assert (TX : 0 <= t * x) by (apply Rmult_le_pos; lra). assert (t * x <= 1 * x) by (apply Rmult_le_compat_r; lra). split.
  - apply Rmult_le_pos; [apply sin_ge_0; lra|]. left. apply Rinv_0_lt_compat. exact S.
  - apply (Rmult_le_reg_r (sin x)); [exact S|]. replace (sin (t * x) / sin x * sin x) with (sin (t * x)) by (field; lra). rewrite Rmult_1_l. apply sin_incr_1; lra.
Qed.
Lemma wt_range x : 0 < x <= 1.6 -> 0 <= wt x <= 1.1.
Proof.
  intros H. pose proof PI2_3_2. destruct (Rle_or_lt x (PI / 2)) as [L | L]; [pose proof (wt_quarter x ltac:(lra)); lra|].
  pose proof (wt_step (PI / 2) x ltac:(lra) L ltac:(lra)) as [A B]. destruct (wt_quarter (PI / 2)) as [C D]; [lra|]. rewrite cos_PI2 in B.
  assert (K : - cos x <= 0.1). { replace (cos x) with (- sin (x - PI / 2)); [pose proof (sin_ub (x - PI / 2) ltac:(lra)); lra|]. rewrite sin_minus, sin_PI2, cos_PI2. ring. }
  lra.
Qed.
End Weight.

(* ---- dot products, lengths ---- *)
Lemma sin_small y : 0 <= y <= 0.1 -> 0.99 * y <= sin y.
Proof.
  intros H. assert (y <= PI) by (pose proof PI2_3_2; lra).
  destruct (SIN y) as [K _]; try lra. eapply Rle_trans; [|exact K].
  unfold sin_lb, sin_approx, sin_term. cbn [sum_f_R0 Nat.mul Nat.add pow].
  replace (INR (fact 1)) with 1 by (cbn; lra).
  replace (INR (fact 3)) with 6 by (cbn; lra).
  replace (INR (fact 5)) with 120 by (cbn; lra).
  replace (INR (fact 7)) with 5040 by (rewrite INR_IZR_INZ; apply f_equal; reflexivity).
  assert (Y : 0 <= y * y <= 0.01) by nra.
  set (z := y * y) in *.
  match goal with |- _ <= ?e => replace e with (y * (1 - z / 6 + z * z / 120 * (1 - z / 42))) by (unfold z; field) end.
  assert (0 <= z * z / 120 * (1 - z / 42)) by (apply Rmult_le_pos; [|lra]; apply Rmult_le_pos; [|lra]; apply Rmult_le_pos; lra).
  rewrite Rmult_comm. apply Rmult_le_compat_l; lra.
Qed.
(** two angles whose cosines are close *)
Lemma sin_gap x y d : 0 <= d -> Rabs (cos x - cos y) <= d -> sin y * sin y <= sin x * sin x + 2 * d.
Proof.
  intros D H. pose proof (sin2_cos2 x) as X. pose proof (sin2_cos2 y) as Y. unfold Rsqr in X, Y. pose proof (COS_bound x). pose proof (COS_bound y).
  assert (cos x * cos x - cos y * cos y <= 2 * d); [|lra]. replace (cos x * cos x - cos y * cos y) with ((cos x - cos y) * (cos x + cos y)) by ring.
  eapply Rle_trans; [apply Rle_abs|]. rewrite Rabs_mult, (Rmult_comm 2). apply Rmult_le_compat; try apply Rabs_pos; [exact H|]. apply Rabs_le; lra.
Qed.
Lemma acos_16 c : -0.01 <= c <= 1 -> 0 <= acos c <= 1.59.
Proof.
  intros H. pose proof (acos_bound c) as [A B]. split; [exact A|]. apply Rnot_lt_le. intros C.
  pose proof PI2_3_2. pose proof pi_hi.
  pose proof (cos_decreasing_1 1.59 (acos c) ltac:(lra) ltac:(lra) ltac:(lra) B C) as D. rewrite cos_acos in D by lra.
  assert (K : cos 1.59 = - sin (1.59 - PI / 2)) by (rewrite sin_minus, sin_PI2, cos_PI2; ring).
  pose proof (sin_lb16 (1.59 - PI / 2) ltac:(lra)). lra.
Qed.

Lemma dot4_am a b c d x y z w : Rabs (dot4 a b c d x y z w) <= (sq4 a b c d + sq4 x y z w) / 2.
Proof.
  unfold dot4, sq4. pose proof (Rle_0_sqr (a - x)). pose proof (Rle_0_sqr (b - y)). pose proof (Rle_0_sqr (c - z)). pose proof (Rle_0_sqr (d - w)).
  pose proof (Rle_0_sqr (a + x)). pose proof (Rle_0_sqr (b + y)). pose proof (Rle_0_sqr (c + z)). pose proof (Rle_0_sqr (d + w)). unfold Rsqr in *. apply Rabs_le. split; lra.
Qed.
(** the points of the arc have unit length *)
Lemma arc_unit th t a b c d x y z w : sq4 a b c d = 1 -> sq4 x y z w = 1 -> dot4 a b c d x y z w = cos th -> sin th <> 0 ->
  sq4 (on_arc th t a x) (on_arc th t b y) (on_arc th t c z) (on_arc th t d w) = 1.
Proof.
  intros A B C S. set (p := sin ((1 - t) * th)). set (q := sin (t * th)).
  replace (sq4 (on_arc th t a x) (on_arc th t b y) (on_arc th t c z) (on_arc th t d w)) with ((p * p * sq4 a b c d + q * q * sq4 x y z w + 2 * (p * q) * dot4 a b c d x y z w) / (sin th * sin th)) by (unfold sq4, dot4, on_arc, p, q; field; exact S).
  rewrite A, B, C. assert (E : p = sin th * cos (t * th) - cos th * q) by (unfold p, q; replace ((1 - t) * th) with (th - t * th) by ring; apply sin_minus).
  pose proof (sin2_cos2 th) as X. pose proof (sin2_cos2 (t * th)) as Y. unfold Rsqr in X, Y. fold q in Y.
  assert (K : p * p * 1 + q * q * 1 + 2 * (p * q) * cos th = sin th * sin th).
  { rewrite E. set (k := cos (t * th)) in *. set (S' := sin th) in *. set (C' := cos th) in *.
    replace ((S' * k - C' * q) * (S' * k - C' * q) * 1 + q * q * 1 + 2 * ((S' * k - C' * q) * q) * C') with (S' * S' * (k * k) + q * q * (1 - C' * C')) by ring.
    replace (1 - C' * C') with (S' * S') by lra. replace (S' * S' * (k * k) + q * q * (S' * S')) with (S' * S' * (q * q + k * k)) by ring. rewrite Y. ring. }
  rewrite K. field. exact S.
Qed.
Lemma dot_small u1 u2 u3 u4 d1 d2 d3 d4 eta : sq4 u1 u2 u3 u4 = 1 -> Rabs d1 <= eta -> Rabs d2 <= eta -> Rabs d3 <= eta -> Rabs d4 <= eta ->
  Rabs (dot4 u1 u2 u3 u4 d1 d2 d3 d4) <= 2 * eta.
Proof.
  intros U H1 H2 H3 H4. pose proof (Rabs_pos d1).
  assert (Q : forall d, Rabs d <= eta -> d * d <= eta * eta). { intros d Hd. rewrite <- (Rabs_right (d * d)) by (apply Rle_ge, Rle_0_sqr). rewrite Rabs_mult. apply Rmult_le_compat; auto using Rabs_pos. }
  assert (SD : sq4 d1 d2 d3 d4 <= 4 * (eta * eta)) by (unfold sq4; pose proof (Q _ H1); pose proof (Q _ H2); pose proof (Q _ H3); pose proof (Q _ H4); lra).
  destruct (Rle_or_lt eta 0) as [Z | Z].
  - assert (EZ : forall d, Rabs d <= eta -> d = 0) by (intros d Hd; apply Rabs_le_inv in Hd; lra). unfold dot4. rewrite (EZ d1 H1), (EZ d2 H2), (EZ d3 H3), (EZ d4 H4). rewrite !Rmult_0_r, !Rplus_0_r, Rabs_R0. lra.
  - set (k := 2 * eta). assert (AM : Rabs (dot4 u1 u2 u3 u4 (d1 / k) (d2 / k) (d3 / k) (d4 / k)) <= 1).
    { eapply Rle_trans; [apply dot4_am|]. rewrite U. replace (sq4 (d1 / k) (d2 / k) (d3 / k) (d4 / k)) with (sq4 d1 d2 d3 d4 / (k * k)) by (unfold sq4, k; field; lra).
      assert (sq4 d1 d2 d3 d4 / (k * k) <= 1); [|lra]. assert (0 < k * k) by (apply Rmult_lt_0_compat; unfold k; lra). apply (Rmult_le_reg_r (k * k)); [assumption|]. unfold Rdiv. rewrite Rmult_assoc, Rinv_l, Rmult_1_r, Rmult_1_l by lra. unfold k. lra. }
    replace (dot4 u1 u2 u3 u4 d1 d2 d3 d4) with (k * dot4 u1 u2 u3 u4 (d1 / k) (d2 / k) (d3 / k) (d4 / k)) by (unfold dot4, k; field; lra).
    rewrite Rabs_mult, (Rabs_right k) by (unfold k; lra). pose proof (Rmult_le_compat_l k _ _ ltac:(unfold k; lra) AM). lra.
Qed.
(** a vector near a unit vector, divided by its length *)
Lemma unit_near u1 u2 u3 u4 v1 v2 v3 v4 eta N : sq4 u1 u2 u3 u4 = 1 -> 0 <= eta <= 1 / 1000 ->
  Rabs (v1 - u1) <= eta -> Rabs (v2 - u2) <= eta -> Rabs (v3 - u3) <= eta -> Rabs (v4 - u4) <= eta -> 0 < N -> N * N = sq4 v1 v2 v3 v4 ->
  forall v u, Rabs u <= 1 -> Rabs (v - u) <= eta -> Rabs (v / N - u) <= 3.1 * eta.
Proof.
  intros U E H1 H2 H3 H4 N0 NN v u AU HV.
  assert (K : Rabs (N * N - 1) <= 4.01 * eta).
  { rewrite NN, <- U. set (d1 := v1 - u1) in *. set (d2 := v2 - u2) in *. set (d3 := v3 - u3) in *. set (d4 := v4 - u4) in *.
    replace (sq4 v1 v2 v3 v4 - sq4 u1 u2 u3 u4) with (2 * dot4 u1 u2 u3 u4 d1 d2 d3 d4 + sq4 d1 d2 d3 d4) by (unfold sq4, dot4, d1, d2, d3, d4; ring).
    assert (Q : forall d, Rabs d <= eta -> d * d <= eta * eta). { intros d Hd. rewrite <- (Rabs_right (d * d)) by (apply Rle_ge, Rle_0_sqr). rewrite Rabs_mult. apply Rmult_le_compat; auto using Rabs_pos. }
    assert (SD : 0 <= sq4 d1 d2 d3 d4 <= 4 * (eta * eta)). { unfold sq4. pose proof (Q _ H1). pose proof (Q _ H2). pose proof (Q _ H3). pose proof (Q _ H4). pose proof (Rle_0_sqr d1). pose proof (Rle_0_sqr d2). pose proof (Rle_0_sqr d3). pose proof (Rle_0_sqr d4). unfold Rsqr in *. lra. }
    assert (E2 : eta * eta <= 1 / 1000 * eta) by (apply Rmult_le_compat_r; lra).
    pose proof (dot_small u1 u2 u3 u4 d1 d2 d3 d4 eta U H1 H2 H3 H4) as DD.
    apply Rabs_le_inv in DD. apply Rabs_le. lra. }
  assert (KN : Rabs (N - 1) <= 2.02 * eta).
  { assert (NB : 0.99 <= N). { apply Rnot_lt_le. intros C. assert (N * N < 0.99 * 0.99) by (apply Rmult_le_0_lt_compat; lra). apply Rabs_le_inv in K. lra. }
    replace (N * N - 1) with ((N - 1) * (N + 1)) in K by ring. rewrite Rabs_mult, (Rabs_right (N + 1)) in K by lra.
    assert (Rabs (N - 1) * 1.99 <= Rabs (N - 1) * (N + 1)) by (apply Rmult_le_compat_l; [apply Rabs_pos|lra]). lra. }
  replace (v / N - u) with (((v - u) + u * (- (N - 1))) * / N) by (field; lra). rewrite Rabs_mult.
  assert (NB : 0.99 <= N) by (apply Rabs_le_inv in KN; lra).
  assert (IN : Rabs (/ N) <= 1.02) by (rewrite Rabs_right by (apply Rle_ge; left; apply Rinv_0_lt_compat; lra); apply (Rmult_le_reg_r N); [lra|]; rewrite Rinv_l by lra; lra).
  assert (T : Rabs (v - u + u * - (N - 1)) <= 3.02 * eta).
  { eapply Rle_trans; [apply Rabs_triang|]. rewrite Rabs_mult, Rabs_Ropp. assert (Rabs u * Rabs (N - 1) <= 1 * (2.02 * eta)) by (apply Rmult_le_compat; auto using Rabs_pos). lra. }
  eapply Rle_trans; [apply Rmult_le_compat; [apply Rabs_pos|apply Rabs_pos|exact T|exact IN]|]. lra.
Qed.
(** one entry of the weighted sum *)
Lemma blend_near k t al th A B s0 s1 e e' y : 0 <= k <= 1 / 1000000000000000 -> 0 <= t <= 1 -> 0 < al <= 1.6 -> 0 < th <= 1.6 -> Rabs (cos al - cos th) <= 42 * k ->
  Rabs A <= 1 -> Rabs B <= 1 -> Rabs (e - A) <= 6.9 * k -> Rabs (e' - B) <= 6.9 * k ->
  Rabs (s0 - sin ((1 - t) * al)) <= 11 * k -> Rabs (s1 - sin (t * al)) <= 11 * k -> Rabs (y - (s0 * e + s1 * e')) <= 6.5 * k ->
  Rabs (y / sin al - on_arc th t A B) <= 127 * k / sin al.
Proof.
  intros K T HA HT HC AA AB E E' S0 S1 Y. pose proof PI2_3_2.
  assert (S : 0 < sin al) by (apply sin_gt_0; lra). assert (S' : 0 < sin th) by (apply sin_gt_0; lra). pose proof (SIN_bound al).
  set (p := sin ((1 - t) * al)) in *. set (q := sin (t * al)) in *.
  assert (P : Rabs p <= 1) by (apply Rabs_le; apply SIN_bound). assert (Q : Rabs q <= 1) by (apply Rabs_le; apply SIN_bound).
  assert (M : forall s p e A, Rabs (s - p) <= 11 * k -> Rabs p <= 1 -> Rabs A <= 1 -> Rabs (e - A) <= 6.9 * k -> Rabs (s * e - p * A) <= 17.95 * k).
  { intros s p1 e1 A1 H1 H2 H3 H4. replace (s * e1 - p1 * A1) with ((s - p1) * e1 + p1 * (e1 - A1)) by ring. eapply Rle_trans; [apply Rabs_triang|]. rewrite !Rabs_mult.
    assert (Rabs e1 <= 1.001) by (apply Rabs_le; apply Rabs_le_inv in H3, H4; lra).
    assert (Rabs (s - p1) * Rabs e1 <= 11 * k * 1.001) by (apply Rmult_le_compat; auto using Rabs_pos). assert (Rabs p1 * Rabs (e1 - A1) <= 1 * (6.9 * k)) by (apply Rmult_le_compat; auto using Rabs_pos). lra. }
  pose proof (M _ _ _ _ S0 P AA E) as M0. pose proof (M _ _ _ _ S1 Q AB E') as M1.
  assert (YY : Rabs (y - (p * A + q * B)) <= 42.5 * k).
  { replace (y - (p * A + q * B)) with ((y - (s0 * e + s1 * e')) + ((s0 * e - p * A) + (s1 * e' - q * B))) by ring. eapply Rle_trans; [apply Rabs_triang|]. pose proof (Rabs_triang (s0 * e - p * A) (s1 * e' - q * B)). lra. }
  assert (L0 : Rabs (wt (1 - t) al - wt (1 - t) th) <= 42 * k) by (eapply Rle_trans; [apply wt_lip; lra|exact HC]).
  assert (L1 : Rabs (wt t al - wt t th) <= 42 * k) by (eapply Rle_trans; [apply wt_lip; lra|exact HC]).
  replace (y / sin al - on_arc th t A B) with ((y - (p * A + q * B)) / sin al + ((wt (1 - t) al - wt (1 - t) th) * A + (wt t al - wt t th) * B)) by (unfold wt, on_arc, p, q; field; split; lra).
  eapply Rle_trans; [apply Rabs_triang|].
  assert (T1 : Rabs ((y - (p * A + q * B)) / sin al) <= 42.5 * k / sin al).
  { unfold Rdiv. rewrite Rabs_mult, (Rabs_right (/ sin al)) by (apply Rle_ge; left; apply Rinv_0_lt_compat; exact S). apply Rmult_le_compat_r; [left; apply Rinv_0_lt_compat; exact S|exact YY]. }
  assert (T2 : Rabs ((wt (1 - t) al - wt (1 - t) th) * A + (wt t al - wt t th) * B) <= 84 * k).
  { eapply Rle_trans; [apply Rabs_triang|]. rewrite !Rabs_mult. assert (Rabs (wt (1 - t) al - wt (1 - t) th) * Rabs A <= 42 * k * 1) by (apply Rmult_le_compat; auto using Rabs_pos). assert (Rabs (wt t al - wt t th) * Rabs B <= 42 * k * 1) by (apply Rmult_le_compat; auto using Rabs_pos). lra. }
  assert (T3 : 84 * k <= 84 * k / sin al). { apply (Rmult_le_reg_r (sin al)); [exact S|]. replace (84 * k / sin al * sin al) with (84 * k) by (field; lra). rewrite <- (Rmult_1_r (84 * k)) at 2. apply Rmult_le_compat_l; lra. }
  assert (0 <= k / sin al) by (apply Rmult_le_pos; [lra|left; apply Rinv_0_lt_compat; exact S]).
  replace (42.5 * k / sin al) with (42.5 * (k / sin al)) in T1 by (field; lra). replace (84 * k / sin al) with (84 * (k / sin al)) in T3 by (field; lra). replace (127 * k / sin al) with (127 * (k / sin al)) by (field; lra). lra.
Qed.

(* ---- the same in binary64 ---- *)
Lemma ee_small : ee <= uu * (1 / 1000).
Proof.
  pose proof uu_pos. pose proof ee_tiny. assert (bpow radix2 (-900) <= 1 / 1000000) by (apply Rle_trans with (bpow radix2 (-20)); [apply bpow_le; lia | cbn; lra]).
  assert (uu * bpow radix2 (-900) <= uu * (1 / 1000000)) by (apply Rmult_le_compat_l; lra). lra.
Qed.
Lemma normal4_near L dot a b c d : In dot b_dots -> Forall (upto 400) [a; b; c; d] ->
  bpow radix2 (-800) <= sq4 (bval a) (bval b) (bval c) (bval d) ->
  let N := sqrt (sq4 (bval a) (bval b) (bval c) (bval d)) in
  exists e f g h : b64, l_div (b64_arith L dot) [a; b; c; d] (l_norm (b64_arith L dot) [a; b; c; d]) = [e; f; g; h] /\
    0 < N /\ sq4 (bval a / N) (bval b / N) (bval c / N) (bval d / N) = 1 /\
    Rabs (bval e - bval a / N) <= 6.9 * uu /\ Rabs (bval f - bval b / N) <= 6.9 * uu /\ Rabs (bval g - bval c / N) <= 6.9 * uu /\ Rabs (bval h - bval d / N) <= 6.9 * uu.
Proof.
  intros HD HF HS N. destruct (norm4 L dot a b c d HD HF HS) as (FN & N0 & HN). fold N in N0, HN.
  set (n := l_norm (b64_arith L dot) [a; b; c; d]) in *. set (S := sq4 (bval a) (bval b) (bval c) (bval d)) in *.
  assert (S0 : 0 <= S) by (pose proof (bpow_gt_0 radix2 (-800)); lra).
  assert (NS : N * N = S) by (apply sqrt_sqrt; exact S0).
  assert (LE : forall z, bval z * bval z <= S -> Rabs (bval z) <= N).
  { intros z Hz. unfold N. rewrite <- (sqrt_square (Rabs (bval z))) by apply Rabs_pos. apply sqrt_le_1_alt.
    pose proof (Rsqr_abs (bval z)) as Q. unfold Rsqr in Q. lra. }
  destruct (sq4_entries (bval a) (bval b) (bval c) (bval d)) as (A1 & B1 & C1 & D1). fold S in A1, B1, C1, D1.
  inversion HF as [|? ? Ua HF1]; inversion HF1 as [|? ? Ub HF2]; inversion HF2 as [|? ? Uc HF3]; inversion HF3 as [|? ? Ud _]; subst.
  destruct (div_near a n N (proj1 Ua) N0 (LE _ A1) HN) as (Fa & Ea & Ya).
  destruct (div_near b n N (proj1 Ub) N0 (LE _ B1) HN) as (Fb & Eb & Yb).
  destruct (div_near c n N (proj1 Uc) N0 (LE _ C1) HN) as (Fc & Ec & Yc).
  destruct (div_near d n N (proj1 Ud) N0 (LE _ D1) HN) as (Fd & Ed & Yd).
  exists (b_div a n), (b_div b n), (b_div c n), (b_div d n). split; [reflexivity|]. split; [exact N0|]. split.
  { replace (sq4 (bval a / N) (bval b / N) (bval c / N) (bval d / N)) with (S / (N * N)) by (unfold S, sq4; field; lra). rewrite NS. field. rewrite <- NS. assert (0 < N * N) by (apply Rmult_lt_0_compat; lra). lra. }
  pose proof uu_pos as P. pose proof ee_small as ES.
  assert (K : forall y, Rabs y <= 1 -> 6.8 * uu * Rabs y + ee <= 6.9 * uu). { intros y Hy. assert (uu * Rabs y <= uu * 1) by (apply Rmult_le_compat_l; lra). lra. }
  pose proof (K _ Ya). pose proof (K _ Yb). pose proof (K _ Yc). pose proof (K _ Yd). repeat split; lra.
Qed.
Lemma blend_round s0 s1 p q sn : bfin s0 -> bfin s1 -> bfin p -> bfin q ->
  Rabs (bval s0) <= 1.01 -> Rabs (bval s1) <= 1.01 -> Rabs (bval p) <= 1.01 -> Rabs (bval q) <= 1.01 ->
  2.6 / 10000000 <= bval sn <= 1.01 ->
  let x := b_div (b_add (b_mul s0 p) (b_mul s1 q)) sn in
  upto 400 x /\ Rabs (bval x * bval sn - (bval s0 * bval p + bval s1 * bval q)) <= 6.5 * uu.
Proof.
  intros Fs0 Fs1 Fp Fq B0 B1 Bp Bq Bn x.
  pose proof uu_pos as P. pose proof uu_val as V. pose proof ee_pos as P'. assert (US : uu <= 1 / 1000000000000000) by lra. pose proof ee_small as ES.
  assert (RNG : forall v, Rabs v <= 1000000000 -> Rlt_bool (Rabs (rnd v)) (bpow radix2 1024) = true).
  { intros v Hv. apply in_range. apply Rle_trans with (bpow radix2 30); [cbn; lra | apply bpow_le; lia]. }
  assert (M : forall s w, Rabs s <= 1.01 -> Rabs w <= 1.01 -> Rabs (s * w) <= 1.0201) by (intros s w Hs Hw; rewrite Rabs_mult; replace 1.0201 with (1.01 * 1.01) by lra; apply Rmult_le_compat; auto using Rabs_pos).
  pose proof (M _ _ B0 Bp) as M0. pose proof (M _ _ B1 Bq) as M1.
  destruct (mul_range s0 p Fs0 Fp) as [F0 V0]; [apply RNG; lra|].
  destruct (mul_range s1 q Fs1 Fq) as [F1 V1]; [apply RNG; lra|].
  pose proof (rnd_err (bval s0 * bval p)) as R0. rewrite <- V0 in R0. pose proof (rnd_err (bval s1 * bval q)) as R1. rewrite <- V1 in R1.
  set (v0 := bval s0 * bval p) in *. set (v1 := bval s1 * bval q) in *.
  set (x0 := b_mul s0 p) in *. set (x1 := b_mul s1 q) in *.
  assert (G0 : uu * Rabs v0 <= uu * 1.0201) by (apply Rmult_le_compat_l; lra). assert (G1 : uu * Rabs v1 <= uu * 1.0201) by (apply Rmult_le_compat_l; lra).
  assert (E01 : Rabs (bval x0 + bval x1 - (v0 + v1)) <= 2.05 * uu).
  { replace (bval x0 + bval x1 - (v0 + v1)) with ((bval x0 - v0) + (bval x1 - v1)) by ring. pose proof (Rabs_triang (bval x0 - v0) (bval x1 - v1)). lra. }
  assert (A01 : Rabs (bval x0 + bval x1) <= 2.05).
  { replace (bval x0 + bval x1) with ((bval x0 + bval x1 - (v0 + v1)) + (v0 + v1)) by ring.
    pose proof (Rabs_triang (bval x0 + bval x1 - (v0 + v1)) (v0 + v1)). pose proof (Rabs_triang v0 v1). lra. }
  destruct (add_range x0 x1 F0 F1) as [F2 V2]; [apply RNG; lra|].
  pose proof (rnd_err (bval x0 + bval x1)) as R2. rewrite <- V2 in R2. unfold x. set (y := b_add x0 x1) in *.
  assert (G2 : uu * Rabs (bval x0 + bval x1) <= uu * 2.05) by (apply Rmult_le_compat_l; lra).
  assert (Ey : Rabs (bval y - (v0 + v1)) <= 4.2 * uu).
  { replace (bval y - (v0 + v1)) with ((bval y - (bval x0 + bval x1)) + (bval x0 + bval x1 - (v0 + v1))) by ring.
    pose proof (Rabs_triang (bval y - (bval x0 + bval x1)) (bval x0 + bval x1 - (v0 + v1))). lra. }
  assert (Ay : Rabs (bval y) <= 2.1).
  { replace (bval y) with ((bval y - (bval x0 + bval x1)) + (bval x0 + bval x1)) by ring. pose proof (Rabs_triang (bval y - (bval x0 + bval x1)) (bval x0 + bval x1)). lra. }
  set (n := bval sn) in *. assert (n0 : 0 < n) by lra.
  assert (I : / n <= 4000000) by (apply Rmult_le_reg_r with n; [lra|]; rewrite Rinv_l by lra; lra).
  assert (I0 : 0 < / n) by (apply Rinv_0_lt_compat; lra).
  assert (Q : Rabs (bval y / n) <= 8400000).
  { unfold Rdiv. rewrite Rabs_mult, (Rabs_right (/ n)) by lra. replace 8400000 with (2.1 * 4000000) by lra. apply Rmult_le_compat; auto using Rabs_pos; lra. }
  destruct (div_range y sn F2) as [F3 V3]; [fold n; lra | apply RNG; fold n; lra|]. fold n in V3.
  pose proof (rnd_err (bval y / n)) as R3. rewrite <- V3 in R3.
  split.
  { split; [exact F3|]. apply Rle_trans with (bpow radix2 30); [|apply bpow_le; lia]. rewrite V3. apply rnd_abs_le; [lia|]. cbn. lra. }
  set (z := bval (b_div y sn)) in *. set (w := bval y / n) in *.
  assert (YW : bval y = w * n) by (unfold w; field; lra).
  assert (Rabs (z * n - bval y) <= 2.2 * uu).
  { rewrite YW. replace (z * n - w * n) with ((z - w) * n) by ring. rewrite Rabs_mult, (Rabs_right n) by lra.
    assert (Rabs (z - w) * n <= (uu * Rabs w + ee) * n) by (apply Rmult_le_compat_r; lra).
    assert (Rabs w * n <= 2.1). { replace (Rabs w * n) with (Rabs (bval y)); [exact Ay|]. rewrite YW, Rabs_mult, (Rabs_right n) by lra. reflexivity. }
    assert (uu * (Rabs w * n) <= uu * 2.1) by (apply Rmult_le_compat_l; lra). assert (ee * n <= ee * 1.01) by (apply Rmult_le_compat_l; lra). lra. }
  replace (z * n - (v0 + v1)) with ((z * n - bval y) + (bval y - (v0 + v1))) by ring.
  pose proof (Rabs_triang (z * n - bval y) (bval y - (v0 + v1))). lra.
Qed.
Lemma weights_near L t th : slerp_libm L -> bfin t -> 0 <= bval t <= 1 -> bfin th -> 9 / 10000000 <= bval th <= 1.6 ->
  Rabs (bval (m_sin L (b_mul (b_sub (b_lit 1 1) t) th)) - sin ((1 - bval t) * bval th)) <= 11 * uu /\
  Rabs (bval (m_sin L (b_mul t th)) - sin (bval t * bval th)) <= 11 * uu /\ Rabs (bval (m_sin L th) - sin (bval th)) <= 2 * uu.
Proof.
  intros (LS & _) Ft T Fh H.
  pose proof uu_val as V. pose proof uu_pos as P. pose proof ee_pos as P'. pose proof ee_le_uu as P2.
  assert (RNG : forall v, Rabs v <= 1000000000 -> Rlt_bool (Rabs (rnd v)) (bpow radix2 1024) = true).
  { intros v Hv. apply in_range. apply Rle_trans with (bpow radix2 30); [cbn; lra | apply bpow_le; lia]. }
  assert (V1 : bval (b_lit 1 1) = 1) by (vm_compute; lra). assert (F1 : bfin (b_lit 1 1)) by (vm_compute; reflexivity).
  set (tau := bval t) in *. set (th' := bval th) in *.
  destruct (sub_range (b_lit 1 1) t F1 Ft) as [Fu Vu]; [apply RNG; rewrite V1; fold tau; rewrite Rabs_right; lra|].
  rewrite V1 in Vu. fold tau in Vu. pose proof (rnd_err (1 - tau)) as Ru. rewrite <- Vu in Ru. rewrite (Rabs_right (1 - tau)) in Ru by lra.
  set (ta := b_sub (b_lit 1 1) t) in *.
  assert (TA : 0 <= bval ta <= 1).
  { rewrite Vu. split.
    - rewrite <- (rnd_exact 0) by apply generic_format_0. apply rnd_le. lra.
    - replace 1 with (bpow radix2 0) at 2 by reflexivity. rewrite <- (rnd_exact (bpow radix2 0)) by (apply fmt_pow; lia). apply rnd_le. cbn. lra. }
  assert (Ea : Rabs (bval ta - (1 - tau)) <= 2 * uu) by (assert (uu * (1 - tau) <= uu * 1) by (apply Rmult_le_compat_l; lra); lra).
  assert (MUL : forall x, bfin x -> 0 <= bval x <= 1 -> bfin (b_mul x th) /\ Rabs (bval (b_mul x th) - bval x * th') <= 3 * uu).
  { intros x Fx Bx. assert (B : 0 <= bval x * th' <= 1.6) by (split; nra).
    destruct (mul_range x th Fx Fh) as [Fm Vm]; [apply RNG; fold th'; rewrite Rabs_right; lra|]. fold th' in Vm.
    pose proof (rnd_err (bval x * th')) as Rm. rewrite <- Vm in Rm. rewrite (Rabs_right (bval x * th')) in Rm by lra.
    assert (uu * (bval x * th') <= uu * 1.6) by (apply Rmult_le_compat_l; lra).
    split; [exact Fm|]. lra. }
  destruct (MUL ta Fu TA) as (Fa0 & Ea0). destruct (MUL t Ft T) as (Fa1 & Ea1). fold tau in Ea1.
  set (a0 := b_mul ta th) in *. set (a1 := b_mul t th) in *.
  destruct (LS _ Fa0) as [Fs0 Es0]. destruct (LS _ Fa1) as [Fs1 Es1]. destruct (LS _ Fh) as [Fsn Esn].
  split; [|split; [|exact Esn]].
  - assert (D : Rabs (bval a0 - (1 - tau) * th') <= 7 * uu).
    { replace (bval a0 - (1 - tau) * th') with ((bval a0 - bval ta * th') + (bval ta - (1 - tau)) * th') by ring. eapply Rle_trans; [apply Rabs_triang|]. rewrite Rabs_mult, (Rabs_right th') by lra.
      assert (Rabs (bval ta - (1 - tau)) * th' <= 2 * uu * 1.6) by (apply Rmult_le_compat; try lra; apply Rabs_pos). lra. }
    pose proof (sin_lip (bval a0) ((1 - tau) * th')).
    replace (bval (m_sin L a0) - sin ((1 - tau) * th')) with ((bval (m_sin L a0) - sin (bval a0)) + (sin (bval a0) - sin ((1 - tau) * th'))) by ring.
    pose proof (Rabs_triang (bval (m_sin L a0) - sin (bval a0)) (sin (bval a0) - sin ((1 - tau) * th'))). lra.
  - pose proof (sin_lip (bval a1) (tau * th')).
    replace (bval (m_sin L a1) - sin (tau * th')) with ((bval (m_sin L a1) - sin (bval a1)) + (sin (bval a1) - sin (tau * th'))) by ring.
    pose proof (Rabs_triang (bval (m_sin L a1) - sin (bval a1)) (sin (bval a1) - sin (tau * th'))). lra.
Qed.
(** the two quaternions slerp starts from, and their dot product *)
Lemma ends_near L dot a b c d a' b' c' d' : In dot b_dots ->
  Forall (upto 400) [a; b; c; d] -> Forall (upto 400) [a'; b'; c'; d'] ->
  bpow radix2 (-800) <= sq4 (bval a) (bval b) (bval c) (bval d) -> bpow radix2 (-800) <= sq4 (bval a') (bval b') (bval c') (bval d') ->
  let N := sqrt (sq4 (bval a) (bval b) (bval c) (bval d)) in let N' := sqrt (sq4 (bval a') (bval b') (bval c') (bval d')) in
  exists s, (s = 1 \/ s = -1) /\
  forall e f g h e' f' g' h' : b64,
    slerp_ends (b64_arith L dot) [a; b; c; d] [a'; b'; c'; d'] = ([e; f; g; h], [e'; f'; g'; h']) ->
    sq4 (s * bval a / N) (s * bval b / N) (s * bval c / N) (s * bval d / N) = 1 /\ sq4 (bval a' / N') (bval b' / N') (bval c' / N') (bval d' / N') = 1 /\
    (Rabs (bval e - s * bval a / N) <= 6.9 * uu /\ Rabs (bval f - s * bval b / N) <= 6.9 * uu /\ Rabs (bval g - s * bval c / N) <= 6.9 * uu /\ Rabs (bval h - s * bval d / N) <= 6.9 * uu) /\
    (Rabs (bval e' - bval a' / N') <= 6.9 * uu /\ Rabs (bval f' - bval b' / N') <= 6.9 * uu /\ Rabs (bval g' - bval c' / N') <= 6.9 * uu /\ Rabs (bval h' - bval d' / N') <= 6.9 * uu).
Proof.
  intros HD HF HF' HS HS' N N'.
  destruct (normal4_near L dot a b c d HD HF HS) as (n1 & n2 & n3 & n4 & E & N0 & U & D1 & D2 & D3 & D4).
  destruct (normal4_near L dot a' b' c' d' HD HF' HS') as (m1 & m2 & m3 & m4 & E' & N0' & U' & D1' & D2' & D3' & D4').
  fold N in N0, U, D1, D2, D3, D4. fold N' in N0', U', D1', D2', D3', D4'.
  unfold slerp_ends. rewrite E, E'. destruct (nlt _ _ _).
  - exists (-1). split; [right; reflexivity|]. intros e f g h e' f' g' h' X. cbn [l_neg map nneg b64_arith] in X.
    assert (EE : [Bopp n1; Bopp n2; Bopp n3; Bopp n4] = [e; f; g; h]) by exact (f_equal fst X). assert (EE' : [m1; m2; m3; m4] = [e'; f'; g'; h']) by exact (f_equal snd X).
    assert (e = Bopp n1) as -> by exact (eq_sym (f_equal (fun l : list b64 => nth 0 l b_zero) EE)). assert (f = Bopp n2) as -> by exact (eq_sym (f_equal (fun l : list b64 => nth 1 l b_zero) EE)). assert (g = Bopp n3) as -> by exact (eq_sym (f_equal (fun l : list b64 => nth 2 l b_zero) EE)). assert (h = Bopp n4) as -> by exact (eq_sym (f_equal (fun l : list b64 => nth 3 l b_zero) EE)).
    assert (e' = m1) as -> by exact (eq_sym (f_equal (fun l : list b64 => nth 0 l b_zero) EE')). assert (f' = m2) as -> by exact (eq_sym (f_equal (fun l : list b64 => nth 1 l b_zero) EE')). assert (g' = m3) as -> by exact (eq_sym (f_equal (fun l : list b64 => nth 2 l b_zero) EE')). assert (h' = m4) as -> by exact (eq_sym (f_equal (fun l : list b64 => nth 3 l b_zero) EE')).
    split; [rewrite <- U; unfold sq4, Rdiv; ring|]. split; [exact U'|]. split; [|repeat split; assumption].
    rewrite !neg_val. assert (K : forall x y, Rabs (x - y / N) <= 6.9 * uu -> Rabs (- x - -1 * y / N) <= 6.9 * uu) by (intros x y H; replace (- x - -1 * y / N) with (- (x - y / N)) by (unfold Rdiv; ring); rewrite Rabs_Ropp; exact H).
    repeat split; apply K; assumption.
  - exists 1. split; [left; reflexivity|]. intros e f g h e' f' g' h' X.
    assert (EE : [n1; n2; n3; n4] = [e; f; g; h]) by exact (f_equal fst X). assert (EE' : [m1; m2; m3; m4] = [e'; f'; g'; h']) by exact (f_equal snd X).
    assert (e = n1) as -> by exact (eq_sym (f_equal (fun l : list b64 => nth 0 l b_zero) EE)). assert (f = n2) as -> by exact (eq_sym (f_equal (fun l : list b64 => nth 1 l b_zero) EE)). assert (g = n3) as -> by exact (eq_sym (f_equal (fun l : list b64 => nth 2 l b_zero) EE)). assert (h = n4) as -> by exact (eq_sym (f_equal (fun l : list b64 => nth 3 l b_zero) EE)).
    assert (e' = m1) as -> by exact (eq_sym (f_equal (fun l : list b64 => nth 0 l b_zero) EE')). assert (f' = m2) as -> by exact (eq_sym (f_equal (fun l : list b64 => nth 1 l b_zero) EE')). assert (g' = m3) as -> by exact (eq_sym (f_equal (fun l : list b64 => nth 2 l b_zero) EE')). assert (h' = m4) as -> by exact (eq_sym (f_equal (fun l : list b64 => nth 3 l b_zero) EE')).
    rewrite !Rmult_1_l. split; [exact U|]. split; [exact U'|]. repeat split; assumption.
Qed.
Lemma dots_near k A B C D A' B' C' D' e f g h e' f' g' h' : 0 <= k <= 1 / 1000000000000000 -> sq4 A B C D = 1 -> sq4 A' B' C' D' = 1 ->
  Rabs (e - A) <= 6.9 * k /\ Rabs (f - B) <= 6.9 * k /\ Rabs (g - C) <= 6.9 * k /\ Rabs (h - D) <= 6.9 * k ->
  Rabs (e' - A') <= 6.9 * k /\ Rabs (f' - B') <= 6.9 * k /\ Rabs (g' - C') <= 6.9 * k /\ Rabs (h' - D') <= 6.9 * k ->
  Rabs (dot4 e f g h e' f' g' h' - dot4 A B C D A' B' C' D') <= 27.8 * k.
Proof.
  intros K U U' (H1 & H2 & H3 & H4) (H1' & H2' & H3' & H4').
  pose proof (dot_small _ _ _ _ _ _ _ _ _ U H1' H2' H3' H4') as X. pose proof (dot_small _ _ _ _ _ _ _ _ _ U' H1 H2 H3 H4) as Y.
  assert (M : forall x y, Rabs x <= 6.9 * k -> Rabs y <= 6.9 * k -> Rabs (x * y) <= 0.01 * k). { intros x y Hx Hy. rewrite Rabs_mult. assert (Rabs x * Rabs y <= 6.9 * k * (6.9 * k)) by (apply Rmult_le_compat; auto using Rabs_pos). assert (k * k <= 1 / 1000000000000000 * k) by (apply Rmult_le_compat_r; lra). lra. }
  pose proof (M _ _ H1 H1') as M1. pose proof (M _ _ H2 H2') as M2. pose proof (M _ _ H3 H3') as M3. pose proof (M _ _ H4 H4') as M4. apply Rabs_le_inv in M1, M2, M3, M4, X, Y.
  replace (dot4 e f g h e' f' g' h' - dot4 A B C D A' B' C' D') with (dot4 A B C D (e' - A') (f' - B') (g' - C') (h' - D') + dot4 A' B' C' D' (e - A) (f - B) (g - C) (h - D) + ((e - A) * (e' - A') + (f - B) * (f' - B') + (g - C) * (g' - C') + (h - D) * (h' - D'))) by (unfold dot4; ring).
  apply Rabs_le. lra.
Qed.
