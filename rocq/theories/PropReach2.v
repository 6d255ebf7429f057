(** Property C110: subproblem3 finds every well-conditioned angle in binary64. *)
From Coq Require Import Reals ZArith List Bool Lra Lia Psatz.
From Flocq Require Import Core.Core IEEE754.BinarySingleNaN.
From Verif Require Import LinAlg RealAux Py FactsReal FactsLinAlg ModelRot SpecRot FactsRot FactsRot2 FactsNorm SpecSub FactsSub ModelRobot ModelFloat SpecRound FactsB64 FactsExact PropB64 PropNorm FactsTrack SpecArc FactsAngle PropElbow PropSlerp PropPi PropAngle PropReach SpecRpy FactsRpy SpecReach.
Import ListNotations.
Open Scope R_scope.

(** the rate is the derivative of the squared distance *)
Lemma reach_poly k p q t : unit3 k -> reach_sq k p q t = dot q q + dot p p + 2 * (cos t * dot q p + sin t * dot q (cross k p) + (1 - cos t) * dot k p * dot q k).
Proof.
  intros U. unfold reach_sq. pose proof (SO3_dot (rot k t) p p (rot_SO3 k t U)) as E. rewrite rot_rotate in E by exact U.
  replace (dot (vadd q (rotate k t p)) (vadd q (rotate k t p))) with (dot q q + dot (rotate k t p) (rotate k t p) + 2 * dot q (rotate k t p)) by la_ring.
  rewrite E. unfold rotate. la_ring.
Qed.
Lemma rate_poly k p q t : unit3 k -> reach_rate k p q t = 2 * (- sin t * dot q p + cos t * dot q (cross k p) + sin t * dot k p * dot q k).
Proof.
  intros U. unfold reach_rate. replace (cross k (rotate k t p)) with (vadd (vscale (- sin t * dot k k) p) (vadd (vscale (cos t) (cross k p)) (vscale (sin t * dot k p) k))) by (unfold rotate; la_ring).
  rewrite U. la_ring.
Qed.
Lemma reach_rate_ok k p q t : unit3 k -> derivable_pt_lim (reach_sq k p q) t (reach_rate k p q t).
Proof.
  intros U. rewrite rate_poly by exact U. set (A := dot q p). set (B := dot q (cross k p)). set (C := dot k p * dot q k).
  assert (D : derivable_pt_lim (plus_fct (fct_cte (dot q q + dot p p + 2 * C)) (plus_fct (mult_real_fct (2 * A - 2 * C) cos) (mult_real_fct (2 * B) sin))) t (0 + ((2 * A - 2 * C) * - sin t + 2 * B * cos t))).
  { apply derivable_pt_lim_plus; [apply derivable_pt_lim_const|]. apply derivable_pt_lim_plus; apply derivable_pt_lim_scal; [apply derivable_pt_lim_cos | apply derivable_pt_lim_sin]. }
  replace (2 * (- sin t * A + cos t * B + sin t * dot k p * dot q k)) with (0 + ((2 * A - 2 * C) * - sin t + 2 * B * cos t)) by (unfold C; ring).
  intros e He. destruct (D e He) as [del Hd]. exists del. intros h H0 H1. specialize (Hd h H0 H1). rewrite !reach_poly by exact U. fold A B.
  unfold plus_fct, mult_real_fct, fct_cte in Hd.
  replace (dot q q + dot p p + 2 * (cos (t + h) * A + sin (t + h) * B + (1 - cos (t + h)) * dot k p * dot q k) - (dot q q + dot p p + 2 * (cos t * A + sin t * B + (1 - cos t) * dot k p * dot q k)))
    with (dot q q + dot p p + 2 * C + ((2 * A - 2 * C) * cos (t + h) + 2 * B * sin (t + h)) - (dot q q + dot p p + 2 * C + ((2 * A - 2 * C) * cos t + 2 * B * sin t))) by (unfold C; ring). exact Hd.
Qed.

(** two angles with nearly the same cosine agree up to sign *)
Lemma cos_match al ph ep ka : Rabs (cos al - cos ph) <= ep -> 0 < ka -> ka <= Rabs (sin al) -> 20 * ep <= ka ->
  same_angle (36 / 10 * (ep / ka)) al ph \/ same_angle (36 / 10 * (ep / ka)) al (- ph).
Proof.
  intros HC K0 K1 HE. assert (E0 : 0 <= ep) by (pose proof (Rabs_pos (cos al - cos ph)); lra).
  assert (KM : ka <= 1). { pose proof (SIN_bound al) as [S1 S2]. apply Rle_trans with (1 := K1). apply Rabs_le. lra. }
  set (e := 2 * (ep / ka)). assert (EK : ep / ka * ka = ep) by (field; lra). assert (Q0 : 0 <= ep / ka) by (apply Rmult_le_pos; [exact E0 | left; apply Rinv_0_lt_compat, K0]).
  assert (Q1 : ep / ka <= 1 / 20) by (apply Rmult_le_reg_r with ka; lra). assert (Q2 : ep <= ep / ka) by (apply Rmult_le_reg_r with ka; [exact K0|]; rewrite EK; nra).
  assert (SQ : Rabs (sin al * sin al - sin ph * sin ph) <= 2 * ep).
  { pose proof (sin2_cos2 al) as A1. pose proof (sin2_cos2 ph) as A2. unfold Rsqr in A1, A2. replace (sin al * sin al - sin ph * sin ph) with (- ((cos al - cos ph) * (cos al + cos ph))) by lra.
    rewrite Rabs_Ropp, Rabs_mult, Rmult_comm. apply Rmult_le_compat; try apply Rabs_pos; [|exact HC]. pose proof (COS_bound al). pose proof (COS_bound ph). apply Rabs_le. lra. }
  assert (G : forall g, 0 <= sin al * sin g -> cos g = cos ph -> sin g * sin g = sin ph * sin ph -> same_angle (36 / 10 * (ep / ka)) al g).
  { intros g S C S2. replace (36 / 10 * (ep / ka)) with (18 / 10 * e) by (unfold e; lra). rewrite <- S2 in SQ. apply sincos_same; [unfold e; lra | | rewrite C; unfold e; lra].
    apply Rmult_le_reg_r with ka; [exact K0|]. apply Rle_trans with (Rabs (sin al - sin g) * Rabs (sin al + sin g)).
    - apply Rmult_le_compat_l; [apply Rabs_pos|]. apply Rle_trans with (1 := K1). unfold Rabs. destruct (Rcase_abs (sin al)), (Rcase_abs (sin al + sin g)); nra.
    - rewrite <- Rabs_mult. replace ((sin al - sin g) * (sin al + sin g)) with (sin al * sin al - sin g * sin g) by ring. unfold e. lra. }
  destruct (Rle_dec 0 (sin al * sin ph)) as [S | S].
  - left. apply G; auto.
  - right. apply G; rewrite ?sin_neg, ?cos_neg; [lra | reflexivity | ring].
Qed.

Section Find.
Context (L : libm) (bdot : list b64 -> list b64 -> b64) (HD : In bdot b_dots) (HL : libm_arc_ok L (8 * uu)).
Context (p q k : list b64) (d : b64) (p0 q0 k0 : vec3) (M : R).
Context (HM : moderate M) (Hp : stored M p p0) (Hq : stored M q q0) (Hk : stored_axis k k0) (Fd : bfin d) (Bd : Rabs (bval d) <= M).
Context (Ap : M <= 1048576 * norm (perp k0 p0)) (Aq : M <= 1048576 * norm (perp k0 q0)).
Local Notation A := (b64_arith L bdot).
Local Notation pp := (sp3_pp L bdot p k).
Local Notation qp := (sp3_qp L bdot q k).
Local Notation num := (sp3_num L bdot p q k d).
Local Notation den := (sp3_den L bdot p q k).
Local Notation a := (norm (perp k0 p0)).
Local Notation b := (norm (perp k0 q0)).
Local Notation num0 := (bval d * bval d - base_sq p0 q0 k0 - dot (perp k0 p0) (perp k0 p0) - dot (perp k0 q0) (perp k0 q0)).
Context (s eta kap : R) (He : Rabs (reach_sq k0 p0 q0 s - bval d * bval d) <= eta) (Hk1 : bpow radix2 (-17) * (M * M) <= kap) (Hk2 : kap <= Rabs (reach_rate k0 p0 q0 s))
  (Hk3 : 64 * eta * (M * M) <= kap * kap).

Lemma nzp : perp k0 p0 <> vzero. Proof. intros Z. rewrite Z, norm_vzero in Ap. pose proof (MP M HM). lra. Qed.
Lemma nzq : perp k0 q0 <> vzero. Proof. intros Z. rewrite Z, norm_vzero in Aq. pose proof (MP M HM). lra. Qed.

(** the exact angle between the two vectors *)
Lemma exact_first : exists t0, mvec (rot k0 t0) (dir (perp k0 p0)) = dir (perp k0 q0) /\
  (forall t, reach_sq k0 p0 q0 t = base_sq p0 q0 k0 + (dot (perp k0 p0) (perp k0 p0) + dot (perp k0 q0) (perp k0 q0)) + 2 * (a * b) * cos (t - t0)) /\
  (forall t, reach_rate k0 p0 q0 t = - (2 * (a * b) * sin (t - t0))).
Proof.
  assert (U : unit3 k0) by apply Hk. destruct (subproblem1_dirs k0 p0 q0 U nzp nzq) as (_ & t0 & _ & F & _). exists t0. split; [exact F|].
  assert (G : forall t, reach_sq k0 p0 q0 t = base_sq p0 q0 k0 + (dot (perp k0 p0) (perp k0 p0) + dot (perp k0 q0) (perp k0 q0)) + 2 * (a * b) * cos (t - t0)).
  { intros t. replace t with (t0 + (t - t0)) at 1 by ring. unfold reach_sq. rewrite <- rot_rotate by exact U. rewrite sp3_dist by exact U. rewrite (sp3_angle k0 p0 q0 t0) by (first [exact U | exact nzp | exact nzq | exact F]).
    unfold base_sq. ring. }
  split; [exact G|]. intros t. apply (uniqueness_limite (reach_sq k0 p0 q0) t); [apply reach_rate_ok, U|].
  set (C := base_sq p0 q0 k0 + (dot (perp k0 p0) (perp k0 p0) + dot (perp k0 q0) (perp k0 q0))) in *.
  assert (D : derivable_pt_lim (plus_fct (fct_cte C) (mult_real_fct (2 * (a * b)) (comp cos (minus_fct id (fct_cte t0))))) t (0 + 2 * (a * b) * (- sin (t - t0) * (1 - 0)))).
  { apply derivable_pt_lim_plus; [apply derivable_pt_lim_const|]. apply derivable_pt_lim_scal. apply derivable_pt_lim_comp; [apply derivable_pt_lim_minus; [apply derivable_pt_lim_id | apply derivable_pt_lim_const]|].
    apply derivable_pt_lim_cos. }
  replace (- (2 * (a * b) * sin (t - t0))) with (0 + 2 * (a * b) * (- sin (t - t0) * (1 - 0))) by ring.
  intros e He'. destruct (D e He') as [del Hd]. exists del. intros h H0 H1. specialize (Hd h H0 H1). rewrite !G. exact Hd.
Qed.

(** both combinations of the two angles are there *)
Lemma both_ends th phi phi0 : bfin th -> Rabs (bval th) <= 16 / 5 -> bfin phi -> 0 <= phi0 <= 3.2 -> Rabs (bval phi - phi0) <= 8 * uu ->
  forall sg, sg = 1 \/ sg = -1 -> exists x, In x (if b_lt (nzero A) (Babs phi) then [b_add th phi; b_sub th phi] else [th]) /\ Rabs (bval x - bval th - sg * phi0) <= 25 * uu.
Proof.
  intros Ft Bt Fp P0 EP sg Hsg. pose proof uu_pos as U. pose proof uu_small as US. pose proof ee_le_uu as EU.
  apply Rabs_le_inv in EP. apply Rabs_le_inv in Bt.
  assert (G : forall x y, isv x (rnd (bval th + y)) -> Rabs (y - sg * phi0) <= 8 * uu -> Rabs (bval x - bval th - sg * phi0) <= 25 * uu).
  { intros x y [Fx Vx] Ey. apply Rabs_le_inv in Ey. pose proof (rnd_err (bval th + y)) as RE. rewrite <- Vx in RE.
    assert (B16 : Rabs (bval th + y) <= 15.5) by (apply Rabs_le; destruct Hsg as [-> | ->]; lra).
    assert (uu * Rabs (bval th + y) <= uu * 15.5) by (apply Rmult_le_compat_l; lra).
    apply Rabs_le_inv in RE. apply Rabs_le. lra. }
  assert (RG : forall y, -4 <= y <= 4 -> Rlt_bool (Rabs (rnd (bval th + y))) (bpow radix2 1024) = true).
  { intros y Hy. apply in_range. apply Rle_trans with (bpow radix2 5); [apply Rabs_le; cbn; lra | apply bpow_le; lia]. }
  assert (FA : bfin (Babs phi)) by (unfold bfin; rewrite is_finite_Babs; exact Fp). assert (VA : bval (Babs phi) = Rabs (bval phi)) by (unfold bval; apply B2R_Babs).
  destruct (zero_val L bdot) as [FZ VZ]. pose proof (b_lt_val _ _ FZ FA) as LT. rewrite VZ, VA in LT.
  destruct (b_lt (nzero A) (Babs phi)).
  - destruct Hsg as [-> | ->].
    + exists (b_add th phi). split; [left; reflexivity|]. apply (G _ (bval phi)); [|apply Rabs_le; lra]. apply add_range; [exact Ft | exact Fp |]. apply RG. lra.
    + exists (b_sub th phi). split; [right; left; reflexivity|]. apply (G _ (- bval phi)); [|apply Rabs_le; lra]. apply sub_range; [exact Ft | exact Fp |]. apply RG. lra.
  - exists th. split; [left; reflexivity|]. apply (G _ 0).
    + split; [exact Ft|]. rewrite Rplus_0_r. symmetry. apply rnd_exact, fmt_bval.
    + destruct (Req_dec (bval phi) 0) as [Z | NZ]; [rewrite Z in EP; apply Rabs_le; destruct Hsg as [-> | ->]; lra|]. exfalso. apply Rabs_pos_lt in NZ. apply LT in NZ. discriminate NZ.
Qed.

(** the wanted distance lies well inside the range *)
Lemma margins : exists t t', reach_sq k0 p0 q0 t <= bval d * bval d - bpow radix2 (-40) * (M * M) /\ bval d * bval d + bpow radix2 (-40) * (M * M) <= reach_sq k0 p0 q0 t'.
Proof.
  destruct exact_first as (t0 & _ & G & GR). pose proof (MP M HM) as M0.
  destruct (a_pos L bdot HD p k p0 k0 M HM Hp Hk Ap) as [A0 A1]. destruct (b_pos L bdot HD q k q0 k0 M HM Hq Hk Aq) as [B0 B1].
  assert (AB : a * b <= M * M) by (apply Rmult_le_compat; lra). assert (AB0 : 0 < a * b) by (apply Rmult_lt_0_compat; lra).
  set (w := a * b) in *. assert (MM : 0 < M * M) by nra. set (m := M * M) in *.
  set (c := cos (s - t0)). set (sn := sin (s - t0)). assert (CS : sn * sn + c * c = 1) by (pose proof (sin2_cos2 (s - t0)) as E; unfold Rsqr in E; exact E).
  rewrite GR in Hk2. fold w sn in Hk2. rewrite Rabs_Ropp, Rabs_mult, (Rabs_right (2 * w)) in Hk2 by lra.
  rewrite G in He. fold w c in He. set (C := base_sq p0 q0 k0 + (dot (perp k0 p0) (perp k0 p0) + dot (perp k0 q0) (perp k0 q0))) in *.
  assert (KP : 0 < kap) by (apply Rlt_le_trans with (2 := Hk1); apply Rmult_lt_0_compat; [apply bpow_gt_0 | exact MM]).
  (* 2 w (1 - |c|) is at least kap^2 / (4 m) *)
  assert (S2 : kap * kap <= 4 * w * w * (sn * sn)). { replace (4 * w * w * (sn * sn)) with ((2 * w * Rabs sn) * (2 * w * Rabs sn)); [apply Rmult_le_compat; lra|]. replace (sn * sn) with (Rabs sn * Rabs sn) by (rewrite <- Rabs_mult; apply Rabs_right; nra). ring. }
  assert (MG : kap * kap <= 8 * m * (w * (1 - Rabs c))).
  { apply Rle_trans with (1 := S2). assert (C2 : c * c = Rabs c * Rabs c) by (rewrite <- Rabs_mult; symmetry; apply Rabs_right; nra). pose proof (Rabs_pos c) as RC. assert (C1 : Rabs c <= 1) by nra.
    replace (sn * sn) with ((1 - Rabs c) * (1 + Rabs c)) by nra. replace (4 * w * w * ((1 - Rabs c) * (1 + Rabs c))) with (4 * w * (w * (1 - Rabs c)) * (1 + Rabs c)) by ring.
    assert (P : 0 <= w * (1 - Rabs c)) by (apply Rmult_le_pos; lra). replace (8 * m * (w * (1 - Rabs c))) with (4 * m * (w * (1 - Rabs c)) * 2) by ring.
    apply Rmult_le_compat; [repeat apply Rmult_le_pos; lra | lra | | lra]. apply Rmult_le_compat_r; [exact P | lra]. }
  assert (SL : 64 * (bpow radix2 (-40) * m) * m <= kap * kap).
  { apply Rle_trans with ((bpow radix2 (-17) * m) * (bpow radix2 (-17) * m)); [|apply Rmult_le_compat; try lra; (apply Rmult_le_pos; [apply bpow_ge_0 | lra])].
    replace (bpow radix2 (-17) * m * (bpow radix2 (-17) * m)) with (bpow radix2 (-17) * bpow radix2 (-17) * (m * m)) by ring. rewrite <- bpow_plus.
    replace (64 * (bpow radix2 (-40) * m) * m) with (64 * bpow radix2 (-40) * (m * m)) by ring. apply Rmult_le_compat_r; [nra|]. cbn. lra. }
  assert (TOT : eta + bpow radix2 (-40) * m <= 2 * (w * (1 - Rabs c))).
  { apply Rmult_le_reg_l with (4 * m); [lra|]. set (sl := bpow radix2 (-40) * m) in *. set (x := w * (1 - Rabs c)) in *. assert (0 <= eta) by (pose proof (Rabs_pos (C + 2 * w * c - bval d * bval d)); lra). nra. }
  apply Rabs_le_inv in He. pose proof (Rle_abs c) as RC1. pose proof (Rle_abs (- c)) as RC2. rewrite Rabs_Ropp in RC2.
  assert (W1 : w * c <= w * Rabs c) by (apply Rmult_le_compat_l; lra). assert (W2 : w * - c <= w * Rabs c) by (apply Rmult_le_compat_l; lra).
  exists (t0 + PI), t0. split.
  - rewrite G. fold w C. replace (t0 + PI - t0) with PI by ring. rewrite cos_PI. fold m. lra.
  - rewrite G. fold w C. replace (t0 - t0) with 0 by ring. rewrite cos_0. fold m. lra.
Qed.
Lemma not_empty : b_lt (sp3_dpsq L bdot p q k d) (nzero A) = false /\ b_lt (b_lit 1 1) (Babs (b_div num den)) = false.
Proof.
  destruct margins as (t & t' & H1 & H2). destruct (sp3_inside L bdot HD p q k d p0 q0 k0 M HM Hp Hq Hk Fd Bd t t' H1 H2) as (D0 & E0 & NE).
  split; [exact D0|]. destruct (sp3_values L bdot HD p q k d p0 q0 k0 M HM Hp Hq Hk Fd Bd) as (_ & (FN & _) & _). destruct (quot_le _ _ FN E0 NE) as (_ & _ & E). exact E.
Qed.

Lemma found l : g_subproblem3 A p q k d = Ok l -> exists x, In x l /\ bfin x /\ same_angle (4 * (eta + 536870912 * (uu * (M * M))) / kap) (bval x) s.
Proof.
  intros E. pose proof E as E'. rewrite sp3_unfold in E. destruct not_empty as [N1 N2]. rewrite N1, N2 in E. cbn [orb] in E.
  destruct (g_subproblem1 _ _ _ _) as [th | e] eqn:ET in E; cbn [bind] in E; [|discriminate E]. cbv zeta in E.
  destruct (cosine L bdot HD p q k d p0 q0 k0 M HM Hp Hq Hk Fd Bd Ap Aq N2) as (FB & B1 & EB).
  destruct (first_angle L bdot HD HL p q k p0 q0 k0 M HM Hp Hq Hk Ap Aq th ET) as (Ft & Bt & ch & HC & N).
  destruct (proj2 HL _ FB B1) as [Fp EP]. set (phi := m_acos L (b_div num den)) in *. set (bb := bval (b_div num den)) in *.
  pose proof pi_hi as PH. pose proof (acos_bound bb) as AB.
  destruct exact_first as (t0 & F & G & GR). pose proof (MP M HM) as M0. pose proof uu_pos as U. pose proof uu_val' as UV.
  destruct (a_pos L bdot HD p k p0 k0 M HM Hp Hk Ap) as [A0 A1]. destruct (b_pos L bdot HD q k q0 k0 M HM Hq Hk Aq) as [B0 BB1].
  assert (ABM : a * b <= M * M) by (apply Rmult_le_compat; lra). assert (AB0 : 0 < a * b) by (apply Rmult_lt_0_compat; lra).
  assert (Uk : unit3 k0) by apply Hk.
  assert (OQ : dot k0 (dir (perp k0 q0)) = 0) by (unfold dir; rewrite dot_vscale_r, perp_dot by exact Uk; ring).
  assert (SWG : forall y, Rabs (cos (y - t0) - cos (y - bval th)) <= ch).
  { intros y. pose proof (swing k0 _ _ y (bval th) ch Uk (dir_unit _ nzq) OQ N) as SW.
    assert (Z : norm (vsub (rotate k0 t0 (dir (perp k0 p0))) (dir (perp k0 q0))) <= 0). { rewrite <- rot_rotate by exact Uk. rewrite F. generalize (dir (perp k0 q0)). intros v. replace (vsub v v) with vzero by (clear; la_ring). rewrite norm_vzero. lra. }
    pose proof (swing k0 _ _ y t0 0 Uk (dir_unit _ nzq) OQ Z) as SW0. apply Rabs_le_inv in SW0. apply Rabs_le_inv in SW. apply Rabs_le. lra. }
  pose proof (SWG s) as SC. pose proof (SWG (s + PI / 2)) as SS. replace (s + PI / 2 - t0) with (PI / 2 + (s - t0)) in SS by ring. replace (s + PI / 2 - bval th) with (PI / 2 + (s - bval th)) in SS by ring.
  assert (CQ : forall z, cos (PI / 2 + z) = - sin z) by (intros z; rewrite cos_plus, cos_PI2, sin_PI2; ring). rewrite !CQ in SS.
  set (w := a * b) in *. set (m := M * M) in *. assert (m0 : 0 < m) by (unfold m; nra).
  pose proof Hk2 as R2. rewrite GR in R2. fold w in R2. rewrite Rabs_Ropp, Rabs_mult, (Rabs_right (2 * w)) in R2 by lra.
  pose proof He as HE. rewrite G in HE. fold w in HE.
  assert (Z0 : 0 < uu * m) by (apply Rmult_lt_0_compat; lra).
  assert (eta0 : 0 <= eta) by (pose proof (Rabs_pos (reach_sq k0 p0 q0 s - bval d * bval d)); lra).
  set (ep2 := eta + 270002209 * (uu * m)).
  assert (K1 : 68719476736 * (uu * m) <= kap). { apply Rle_trans with (2 := Hk1). rewrite UV. cbn. nra. }
  assert (KU : kap <= 2 * m). { apply Rle_trans with (1 := R2). pose proof (SIN_bound (s - t0)). assert (Rabs (sin (s - t0)) <= 1) by (apply Rabs_le; lra). apply Rle_trans with (2 * w * 1); [apply Rmult_le_compat_l; lra | lra]. }
  assert (CM : Rabs (cos (s - bval th) - bb) <= ep2 / (2 * w)).
  { apply Rmult_le_reg_l with (2 * w); [lra|]. replace (2 * w * (ep2 / (2 * w))) with ep2 by (field; lra).
    rewrite <- (Rabs_right (2 * w)) at 1 by lra. rewrite <- Rabs_mult.
    replace (2 * w * (cos (s - bval th) - bb)) with (2 * w * (cos (s - bval th) - cos (s - t0)) + (2 * w * cos (s - t0) - num0) - (2 * w * bb - num0)) by ring.
    assert (T1 : Rabs (2 * w * (cos (s - bval th) - cos (s - t0))) <= 270000000 * (uu * m)). { rewrite Rabs_mult, (Rabs_right (2 * w)) by lra. rewrite Rabs_minus_sym. apply Rle_trans with (2 * w * ch); [apply Rmult_le_compat_l; lra | exact HC]. }
    apply Rabs_le_inv in T1. apply Rabs_le_inv in EB. apply Rabs_le_inv in HE. unfold ep2. apply Rabs_le. lra. }
  assert (SK : 99 / 100 * kap / (2 * w) <= Rabs (sin (s - bval th))).
  { apply Rmult_le_reg_l with (2 * w); [lra|]. replace (2 * w * (99 / 100 * kap / (2 * w))) with (99 / 100 * kap) by (field; lra).
    pose proof (Rabs_triang_inv (sin (s - t0)) (sin (s - t0) - sin (s - bval th))) as TI. replace (sin (s - t0) - (sin (s - t0) - sin (s - bval th))) with (sin (s - bval th)) in TI by ring.
    assert (Rabs (sin (s - t0) - sin (s - bval th)) <= ch). { rewrite Rabs_minus_sym. replace (sin (s - bval th) - sin (s - t0)) with (- sin (s - t0) - - sin (s - bval th)) by ring. exact SS. }
    assert (2 * w * (Rabs (sin (s - t0)) - ch) <= 2 * w * Rabs (sin (s - bval th))) by (apply Rmult_le_compat_l; lra). lra. }
  assert (SMALL : 20 * ep2 <= 99 / 100 * kap).
  { assert (64 * eta <= 2 * kap). { apply Rmult_le_reg_r with m; [exact m0|]. apply Rle_trans with (kap * kap); [exact Hk3|]. replace (2 * kap * m) with (kap * (2 * m)) by ring. apply Rmult_le_compat_l; lra. }
    unfold ep2. lra. }
  assert (KP : 0 < kap) by lra.
  rewrite <- (cos_acos bb) in CM by (apply Rabs_le_inv in B1; lra).
  assert (I0 : 0 < / (2 * w)) by (apply Rinv_0_lt_compat; lra).
  assert (RR : ep2 / (2 * w) / (99 / 100 * kap / (2 * w)) = 100 / 99 * (ep2 / kap)) by (field; lra).
  assert (FIN : forall sg, sg = 1 \/ sg = -1 -> same_angle (36 / 10 * (100 / 99 * (ep2 / kap))) (s - bval th) (sg * acos bb) -> exists x, In x l /\ bfin x /\ same_angle (4 * (eta + 536870912 * (uu * m)) / kap) (bval x) s).
  { intros sg Hsg (n & Hn). destruct (both_ends th phi (acos bb) Ft Bt Fp ltac:(lra) EP sg Hsg) as (x & HI & HX).
    assert (HX' : In x l) by (destruct (b_lt (nzero A) (Babs phi)); injection E as <-; exact HI).
    exists x. split; [exact HX'|]. split. { exact (proj1 (residual L bdot HD HL p q k d p0 q0 k0 M HM Hp Hq Hk Fd Bd Ap Aq l x E' HX')). }
    exists (- n)%Z. rewrite opp_IZR.
    apply Rle_trans with (36 / 10 * (100 / 99 * (ep2 / kap)) + 25 * uu).
    - apply Rabs_le_inv in Hn. apply Rabs_le_inv in HX. apply Rabs_le. lra.
    - replace (4 * (eta + 536870912 * (uu * m)) / kap) with (4 * ((eta + 536870912 * (uu * m)) / kap)) by (field; lra).
      assert (D1 : 25 * uu <= 50 * (uu * m) / kap). { apply Rmult_le_reg_r with kap; [exact KP|]. replace (50 * (uu * m) / kap * kap) with (25 * uu * (2 * m)) by (field; lra). apply Rmult_le_compat_l; lra. }
      apply Rle_trans with (36 / 10 * (100 / 99 * (ep2 / kap)) + 50 * (uu * m) / kap); [lra|].
      apply Rmult_le_reg_r with kap; [exact KP|]. replace ((36 / 10 * (100 / 99 * (ep2 / kap)) + 50 * (uu * m) / kap) * kap) with (36 / 10 * (100 / 99 * ep2) + 50 * (uu * m)) by (field; lra).
      replace (4 * ((eta + 536870912 * (uu * m)) / kap) * kap) with (4 * (eta + 536870912 * (uu * m))) by (field; lra). unfold ep2. lra. }
  destruct (cos_match (s - bval th) (acos bb) (ep2 / (2 * w)) (99 / 100 * kap / (2 * w)) CM) as [H | H].
  - apply Rmult_lt_0_compat; lra.
  - exact SK.
  - replace (20 * (ep2 / (2 * w))) with (20 * ep2 * / (2 * w)) by (field; lra). apply Rmult_le_compat_r; lra.
  - rewrite RR in H. apply (FIN 1 (or_introl eq_refl)). rewrite Rmult_1_l. exact H.
  - rewrite RR in H. apply (FIN (-1) (or_intror eq_refl)). replace (-1 * acos bb) with (- acos bb) by ring. exact H.
Qed.
End Find.

(** Let the angle s bring the sum of the two vectors to the wanted distance, up to eta in the square, and let the
    squared distance change at the rate kap or faster there.  Then subproblem3, if it returns, returns an angle
    within 4 (eta + 2^-24 M^2) / kap of s. *)
Theorem C110_complete : forall L bdot p q k d p0 q0 k0 M s eta kap l, In bdot b_dots -> libm_arc_ok L (bpow radix2 (-50)) ->
  moderate M -> stored M p p0 -> stored M q q0 -> stored_axis k k0 -> bfin d -> Rabs (bval d) <= M ->
  M <= bpow radix2 20 * norm (perp k0 p0) -> M <= bpow radix2 20 * norm (perp k0 q0) ->
  Rabs (reach_sq k0 p0 q0 s - bval d * bval d) <= eta -> bpow radix2 (-17) * (M * M) <= kap -> kap <= Rabs (reach_rate k0 p0 q0 s) -> 64 * eta * (M * M) <= kap * kap ->
  g_subproblem3 (b64_arith L bdot) p q k d = Ok l ->
  exists x, In x l /\ bfin x /\ same_angle (4 * (eta + bpow radix2 (-24) * (M * M)) / kap) (bval x) s.
Proof.
  intros L bdot p q k d p0 q0 k0 M s eta kap l HD HL HM Hp Hq Hk Fd Bd Ap Aq He K1 K2 K3 E. rewrite eight in HL.
  replace (bpow radix2 (-24) * (M * M)) with (536870912 * (uu * (M * M))) by (rewrite uu_val'; cbn; lra).
  exact (found L bdot HD HL p q k d p0 q0 k0 M HM Hp Hq Hk Fd Bd Ap Aq s eta kap He K1 K2 K3 l E).
Qed.
(** About a coordinate axis it does return. *)
Theorem C110_coordinate_axis : forall L bdot p q i d p0 q0 M s eta kap, In bdot b_dots -> libm_arc_ok L (bpow radix2 (-50)) -> (i < 3)%nat ->
  moderate M -> stored M p p0 -> stored M q q0 -> bfin d -> Rabs (bval d) <= M ->
  M <= bpow radix2 20 * norm (perp (e_axis i) p0) -> M <= bpow radix2 20 * norm (perp (e_axis i) q0) ->
  Rabs (reach_sq (e_axis i) p0 q0 s - bval d * bval d) <= eta -> bpow radix2 (-17) * (M * M) <= kap -> kap <= Rabs (reach_rate (e_axis i) p0 q0 s) -> 64 * eta * (M * M) <= kap * kap ->
  exists l x, g_subproblem3 (b64_arith L bdot) p q (b_axis i) d = Ok l /\ In x l /\ bfin x /\ same_angle (4 * (eta + bpow radix2 (-24) * (M * M)) / kap) (bval x) s.
Proof.
  intros L bdot p q i d p0 q0 M s eta kap HD HL Hi HM Hp Hq Fd Bd Ap Aq He K1 K2 K3. pose proof (e_stored i) as Hk.
  destruct (margins L bdot HD p q (b_axis i) d p0 q0 (e_axis i) M HM Hp Hq Hk Ap Aq s eta kap He K1 K2 K3) as (t & t' & H1 & H2).
  destruct (C82_coordinate_axis L bdot p q i d p0 q0 M t t' HD HL Hi HM Hp Hq Fd Bd Ap Aq H1 H2) as (l & E & _ & _).
  destruct (C110_complete L bdot p q (b_axis i) d p0 q0 (e_axis i) M s eta kap l HD HL HM Hp Hq Hk Fd Bd Ap Aq He K1 K2 K3 E) as (x & HI & F & H).
  exists l, x. auto.
Qed.

(** (0, 4, 2) turned about the last axis and added to (3, 0, 1): the square of the distance is 34 - 24 sin t, and it is
    25 at the arc sine of 3/8 and at the same angle from the other side.  Both are found. *)
Lemma x_reach t : reach_sq (e_axis 2) (V3 0 4 2) (V3 3 0 1) t = 34 - 24 * sin t /\ reach_rate (e_axis 2) (V3 0 4 2) (V3 3 0 1) t = - 24 * cos t.
Proof.
  pose proof (sin2_cos2 t) as E. unfold Rsqr in E. unfold reach_sq, reach_rate, rotate, LinAlg.dot, e_axis. cbn [vx vy vz vadd vscale cross]. split; nra.
Qed.
Example C110_ex : forall bdot, In bdot b_dots -> let p0 := V3 0 4 2 in let q0 := V3 3 0 1 in let d := b_ofZ 5 in let s := asin (3 / 8) in
  (reach_sq (e_axis 2) p0 q0 s = bval d * bval d /\ 22 <= Rabs (reach_rate (e_axis 2) p0 q0 s)) /\ (reach_sq (e_axis 2) p0 q0 (PI - s) = bval d * bval d /\ 22 <= Rabs (reach_rate (e_axis 2) p0 q0 (PI - s))) /\
  exists l x x', g_subproblem3 (b64_arith arc_libm bdot) (b_vec [0;4;2]%Z) (b_vec [3;0;1]%Z) (b_axis 2) d = Ok l /\ In x l /\ In x' l /\
    same_angle (bpow radix2 (-20)) (bval x) s /\ same_angle (bpow radix2 (-20)) (bval x') (PI - s).
Proof.
  intros bdot HD p0 q0 d s. destruct C82_inside_ex as (HL & HM & Hp & Hq & _ & Fd & Bd & Ap & Aq & _). cbv zeta in *. fold p0 in Hp, Ap. fold q0 in Hq, Aq. fold d in Fd, Bd.
  assert (V : bval d = 5) by (vm_compute; lra). assert (S : sin s = 3 / 8) by (apply sin_asin; lra).
  assert (C : 22 <= Rabs (- 24 * cos s)).
  { assert (C0 : 0 <= cos s). { pose proof (asin_bound (3 / 8)). apply cos_ge_0; unfold s; lra. } pose proof (sin2_cos2 s) as E. unfold Rsqr in E. rewrite S in E. rewrite Rabs_left1 by lra. nra. }
  assert (S' : sin (PI - s) = 3 / 8) by (rewrite sin_PI_x; exact S).
  assert (C' : 22 <= Rabs (- 24 * cos (PI - s))). { replace (cos (PI - s)) with (- cos s) by (rewrite cos_minus, cos_PI, sin_PI; ring). replace (-24 * - cos s) with (- (-24 * cos s)) by ring. rewrite Rabs_Ropp. exact C. }
  destruct (x_reach s) as [E1 R1]. destruct (x_reach (PI - s)) as [E2 R2]. fold p0 q0 in E1, R1, E2, R2. rewrite S in E1. rewrite S' in E2. rewrite <- R1 in C. rewrite <- R2 in C'.
  assert (D1 : reach_sq (e_axis 2) p0 q0 s = bval d * bval d) by (rewrite E1, V; lra). assert (D2 : reach_sq (e_axis 2) p0 q0 (PI - s) = bval d * bval d) by (rewrite E2, V; lra).
  split; [split; [exact D1 | exact C]|]. split; [split; [exact D2 | exact C']|].
  assert (Z : forall t, reach_sq (e_axis 2) p0 q0 t = bval d * bval d -> Rabs (reach_sq (e_axis 2) p0 q0 t - bval d * bval d) <= 0) by (intros t ->; rewrite Rminus_diag_eq by reflexivity; rewrite Rabs_R0; lra).
  assert (K1 : bpow radix2 (-17) * (8 * 8) <= 22) by (cbn; lra). assert (K3 : 64 * 0 * (8 * 8) <= 22 * 22) by lra.
  destruct (C110_coordinate_axis arc_libm bdot _ _ 2 d p0 q0 8 s 0 22 HD HL ltac:(lia) HM Hp Hq Fd Bd Ap Aq (Z s D1) K1 C K3) as (l & x & EL & HI & _ & HX).
  destruct (C110_coordinate_axis arc_libm bdot _ _ 2 d p0 q0 8 (PI - s) 0 22 HD HL ltac:(lia) HM Hp Hq Fd Bd Ap Aq (Z (PI - s) D2) K1 C' K3) as (l' & x' & EL' & HI' & _ & HX').
  rewrite EL in EL'. injection EL' as <-. exists l, x, x'. split; [exact EL|]. split; [exact HI|]. split; [exact HI'|].
  assert (W : 4 * (0 + bpow radix2 (-24) * (8 * 8)) / 22 <= bpow radix2 (-20)) by (cbn; lra).
  split; eapply same_weak; [exact W | exact HX | exact W | exact HX'].
Qed.

(** Where the rate is 0 an angle can be lost: two vectors of whole lengths along one line, added, have the wanted
    length exactly, but the rounded cosine is above 1 and nothing is returned. *)
Theorem C110_stretched_refuted : exists p q d p0 q0 M, moderate M /\ stored M p p0 /\ stored M q q0 /\ bfin d /\ Rabs (bval d) <= M /\
  M <= 3 * norm (perp (e_axis 2) p0) /\ M <= 3 * norm (perp (e_axis 2) q0) /\ reach_sq (e_axis 2) p0 q0 0 = bval d * bval d /\
  forall L bdot, In bdot b_dots -> g_subproblem3 (b64_arith L bdot) p q (b_axis 2) d = Ok [].
Proof.
  exists (b_vec [106002693;0;0]%Z), (b_vec [69993163;0;0]%Z), (b_ofZ 175995856), (V3 106002693 0 0), (V3 69993163 0 0), 175995856.
  assert (V : bval (b_ofZ 175995856) = 175995856) by (vm_compute; lra).
  assert (N : forall v x, 0 <= x -> dot v v = x * x -> norm v = x). { intros v x X E. unfold norm, norm2. rewrite E. apply sqrt_square, X. }
  assert (PPp : norm (perp (e_axis 2) (V3 106002693 0 0)) = 106002693) by (apply N; [lra | unfold perp, dot, vsub, vscale; cbn [e_axis vx vy vz]; lra]).
  assert (PPq : norm (perp (e_axis 2) (V3 69993163 0 0)) = 69993163) by (apply N; [lra | unfold perp, dot, vsub, vscale; cbn [e_axis vx vy vz]; lra]).
  split; [split; [apply Rle_trans with (bpow radix2 0); [apply bpow_le; lia | cbn; lra] | apply Rle_trans with (bpow radix2 28); [cbn; lra | apply bpow_le; lia]]|]. split; [apply vec_val; [ofz | lra | unfold dot; cbn [vx vy vz]; lra]|]. split; [apply vec_val; [ofz | lra | unfold dot; cbn [vx vy vz]; lra]|].
  split; [reflexivity|]. split; [rewrite V, Rabs_right; lra|]. rewrite PPp, PPq, V. split; [lra|]. split; [lra|]. split.
  - unfold reach_sq. rewrite rotate_0. unfold dot, vadd. cbn [vx vy vz]. lra.
  - intros L bdot HD. cbn [In b_dots] in HD. repeat (destruct HD as [<- | HD]; [vm_compute; reflexivity|]). contradiction.
Qed.
Print Assumptions C110_complete.
Print Assumptions C110_coordinate_axis.
Print Assumptions C110_stretched_refuted.
