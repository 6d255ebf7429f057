(** The first three joints of robot6_sphericalwrist_invkin in binary64: how far they leave the centre of the wrist from
    where it should be. *)
From Coq Require Import Reals ZArith List Bool Lra Lia Psatz.
From Flocq Require Import Core.Core IEEE754.BinarySingleNaN.
From Verif Require Import LinAlg RealAux Py FactsReal FactsLinAlg ModelRot SpecRot FactsRot FactsNorm SpecSub FactsSub ModelFloat ModelFloat2 ModelFloat3 ModelFloat6 ModelFloat9 ModelFloat10 ModelFloat11 SpecRound FactsRound FactsB64 FactsExact FactsTrack SpecArc SpecSub4 SpecRpy FactsIk64 FactsPath64 FactsJoint64.
From Verif Require FactsIkGeo PropNorm PropElbow PropReach PropSub4 PropSub2 PropMove PropAngle.
Import ListNotations.
Open Scope R_scope.

Lemma near_dot u a b : Rabs (dot u a - dot u b) <= norm u * norm (vsub a b).
Proof. replace (dot u a - dot u b) with (dot u (vsub a b)) by (rewrite dot_vsub_r; ring). apply abs_dot_le. Qed.
Lemma near_dot_l u a b : Rabs (dot a u - dot b u) <= norm u * norm (vsub a b).
Proof. rewrite (dot_comm a u), (dot_comm b u). apply near_dot. Qed.
Lemma near_sq a b m e : norm a <= m -> norm b <= m -> norm (vsub a b) <= e -> Rabs (dot a a - dot b b) <= 2 * m * e.
Proof.
  intros Ha Hb He. pose proof (norm_dist_le a b) as D. pose proof (norm_nonneg a). pose proof (norm_nonneg b). pose proof (norm_nonneg (vsub a b)).
  rewrite <- !norm_sq. replace (norm a * norm a - norm b * norm b) with ((norm a - norm b) * (norm a + norm b)) by ring. rewrite Rabs_mult, (Rabs_right (norm a + norm b)) by lra.
  apply Rle_trans with (e * (2 * m)); [|lra]. apply Rmult_le_compat; [apply Rabs_pos|lra|lra|lra].
Qed.
Lemma perp_lin h a b : vsub (perp h a) (perp h b) = perp h (vsub a b).
Proof. unfold perp. rewrite dot_vsub_l. generalize (dot a h), (dot b h). intros. la_ring. Qed.
Lemma perp_near h a b : unit3 h -> Rabs (norm (perp h a) - norm (perp h b)) <= norm (vsub a b).
Proof. intros U. eapply Rle_trans; [apply norm_dist_le|]. rewrite perp_lin. apply FactsTrack.perp_le. exact U. Qed.
Lemma perp_sq h v : unit3 h -> norm (perp h v) * norm (perp h v) = dot v v - dot v h * dot v h.
Proof. intros U. rewrite norm_sq. rewrite (dot_perp h v v U). ring. Qed.
(** circles about one axis, from lengths and heights *)
Lemma radii h a b M r e c : unit3 h -> 0 < M -> 1 <= r -> 0 <= e -> 0 <= c -> norm a <= M -> norm b <= M -> Rabs (dot a a - dot b b) <= e * (M * M) -> Rabs (dot a h - dot b h) <= c * M -> M <= r * norm (perp h a) ->
  Rabs (norm (perp h a) - norm (perp h b)) <= (e + 2 * c) * M * r.
Proof.
  intros U MP R1 E0 C0 Na Nb Q H P. pose proof (norm_nonneg (perp h a)) as PA. pose proof (norm_nonneg (perp h b)) as PB.
  assert (N0 : 0 < norm (perp h a)) by (apply Rnot_le_lt; intros C; assert (r * norm (perp h a) <= r * 0) by (apply Rmult_le_compat_l; lra); lra).
  assert (HH : Rabs (dot a h * dot a h - dot b h * dot b h) <= 2 * c * (M * M)).
  { replace (dot a h * dot a h - dot b h * dot b h) with ((dot a h - dot b h) * (dot a h + dot b h)) by ring. rewrite Rabs_mult. apply Rle_trans with (c * M * (2 * M)); [|right; ring].
    apply Rmult_le_compat; try apply Rabs_pos; [exact H|]. eapply Rle_trans; [apply Rabs_triang|]. pose proof (abs_dot_le a h). pose proof (abs_dot_le b h). rewrite (norm_unit h U) in *. lra. }
  assert (S : Rabs (norm (perp h a) - norm (perp h b)) * norm (perp h a) <= (e + 2 * c) * (M * M)).
  { apply Rle_trans with (Rabs (norm (perp h a) - norm (perp h b)) * (norm (perp h a) + norm (perp h b))); [apply Rmult_le_compat_l; [apply Rabs_pos|lra]|].
    rewrite <- (Rabs_right (norm (perp h a) + norm (perp h b))) by lra. rewrite <- Rabs_mult.
    replace ((norm (perp h a) - norm (perp h b)) * (norm (perp h a) + norm (perp h b))) with (norm (perp h a) * norm (perp h a) - norm (perp h b) * norm (perp h b)) by ring. rewrite !perp_sq by exact U.
    apply Rabs_le_inv in Q. apply Rabs_le_inv in HH. apply Rabs_le. lra. }
  apply (Rmult_le_reg_r (norm (perp h a))); [exact N0|]. eapply Rle_trans; [exact S|]. replace ((e + 2 * c) * M * r * norm (perp h a)) with ((e + 2 * c) * M * (r * norm (perp h a))) by ring. rewrite <- Rmult_assoc.
  apply Rmult_le_compat_l; [apply Rmult_le_pos; lra|exact P].
Qed.
Lemma seps_uu : sqrt_eps = 134217728 * uu. Proof. rewrite uu_val'. unfold sqrt_eps. cbn. lra. Qed.
Lemma b42 : bpow radix2 (-42) = 2048 * uu. Proof. rewrite uu_val'. cbn. lra. Qed.
Lemma b50 : bpow radix2 (-50) = 8 * uu. Proof. rewrite uu_val'. cbn. lra. Qed.
Lemma same_perp h k v : h = k \/ h = vneg k -> perp h v = perp k v.
Proof. intros [-> | ->]; [reflexivity|apply FactsIkGeo.perp_neg]. Qed.
Lemma turn_axis h t v : unit3 h -> on_axis h v -> rotate h t v = v.
Proof.
  intros U O. unfold on_axis in O. assert (E : v = vscale (dot v h) h) by (rewrite (perp_decomp h v) at 1; rewrite O; unfold vadd, vscale, vzero; cbn; f_equal; ring).
  rewrite E. generalize (dot v h). intros c. unfold rotate. rewrite dot_vscale_r. unfold unit3, norm2 in U. rewrite U. unfold vadd, vscale, cross. cbn. f_equal; ring.
Qed.
Lemma turn_add h t v w : rotate h t (vadd v w) = vadd (rotate h t v) (rotate h t w).
Proof. unfold rotate. rewrite dot_vadd_r. generalize (sin t) (cos t) (dot h v) (dot h w). intros. la_ring. Qed.

Lemma joint_fin L dot (z : gnormalizer (b64_arith L dot)) j (t x : b64) : g_normalize (b64_arith L dot) b_rem z j t = Ok (Some x) -> bfin x -> bfin t.
Proof.
  intros H Fx. destruct (PropNorm.normalize_form _ _ _ _ _ _ H) as (lu & s & ES & HX).
  assert (Fs : bfin s).
  { destruct HX as [-> | (m & E)]; [exact Fx|]. change (x = b_add s (b_mul (b_mul (b_lit 2 1) b_pi) (b_ofZ m))) in E. rewrite E in *. exact (proj1 (PropNorm.b_turns s m Fx)). }
  exact (proj1 (PropNorm.start_turns L dot lu t s ES Fs)).
Qed.
Lemma neg_axis3 (x : v3 b64) k L dot : stored_axis3 x k -> stored_axis3 (g_vneg (b64_arith L dot) x) (vneg k).
Proof.
  intros (U & G0 & G1 & G2 & B0 & B1 & B2). unfold g_vneg, stored_axis3. cbn [v3map w0 w1 w2 vneg vx vy vz]. split; [unfold unit3, norm2, LinAlg.dot, vneg in *; cbn [vx vy vz] in *; lra|].
  assert (F : forall y, bfin y -> bfin (nneg (b64_arith L dot) y)) by (intros y HY; unfold bfin in *; cbn [nneg b64_arith]; rewrite is_finite_Bopp; exact HY).
  assert (V : forall y, bval (nneg (b64_arith L dot) y) = - bval y) by (intros y; unfold bval; cbn [nneg b64_arith]; apply B2R_Bopp).
  repeat split; try (apply F; assumption); rewrite V; unfold vneg; cbn [vx vy vz]; match goal with |- Rabs (- ?a - - ?b) <= _ => replace (- a - - b) with (- (a - b)) by ring end; rewrite Rabs_Ropp; assumption.
Qed.
Lemma turn_neg k t v : rotate (vneg k) t v = rotate k (- t) v.
Proof. unfold rotate. rewrite cos_neg, sin_neg. unfold vadd, vscale, cross, dot, vneg. cbn. f_equal; ring. Qed.
Lemma flat h x3 v : h = ey \/ h = vneg ey -> dot ey (rotate h x3 v) = dot ey v.
Proof.
  intros E. assert (U : unit3 h) by (destruct E as [-> | ->]; unfold unit3, norm2, dot, ey, vneg; cbn; ring). pose proof (PropSub2.turn_height h x3 v U) as H.
  rewrite (dot_comm ey), (dot_comm ey). destruct E as [-> | ->]; [exact H|]. rewrite !dot_vneg_r in H. lra.
Qed.

Section Arm.
Context (L : libm) (bdot : list b64 -> list b64 -> b64) (f : b64 -> b64) (HD : In bdot b_dots) (HL : libm_ok L (bpow radix2 (-52))) (HT : libm_total L)
  (HA : libm_arc_ok L (8 * uu)) (HG : libm_angle_ok L (bpow radix2 (-50))) (HF : libm_asin_ok f (bpow radix2 (-50))).
Notation A := (b64_arith L bdot).
Notation vval := (SpecRound.vval (A := b64_arith L bdot) bval).
Notation vfin := (SpecRound.vfin (A := b64_arith L bdot) bfin).
Notation mc := (FactsPath64.mc L bdot).
Notation vc := (FactsPath64.vc L bdot).
Context (H0 H1 H2 P0 P1 P2 P3 P6 : v3 b64) (R06 : m3 b64) (pT : v3 b64) (h0 h1 h2 : vec3) (Q : mat3) (M : R).
Context (S0 : stored_axis3 H0 h0) (S1 : stored_axis3 H1 h1) (S2 : stored_axis3 H2 h2) (MQ : mc 2200 R06 Q).
Context (F0 : vfin P0) (F1 : vfin P1) (F2 : vfin P2) (F3 : vfin P3) (F6 : vfin P6) (FT : vfin pT).
Notation p0 := (vval P0). Notation p1 := (vval P1). Notation p2 := (vval P2). Notation p3 := (vval P3). Notation p6 := (vval P6). Notation T := (vval pT).
Context (RM : rg 150 M) (SZ : 1001 / 1000 * (norm p0 + norm p1 + norm p2 + norm p3 + norm p6 + norm T) <= M).
Context (E1 : h1 = ey \/ h1 = vneg ey) (E2 : h2 = ey \/ h2 = vneg ey) (O0 : on_axis h0 p0) (Y0 : vy p0 = 0).
(** the centre of the wrist, from the pose and from the links *)
Definition cv : vec3 := vsub T (mvec Q p6).
Definition c26 (x1 : R) : vec3 := vsub (rotate h0 (- x1) cv) (vadd p0 p1).
Definition c2 (x3 : R) : vec3 := vadd p2 (rotate h2 x3 p3).

Lemma RM' n : (150 <= n)%Z -> rg n M. Proof. intros. apply (rg_weak 150); assumption. Qed.
Lemma MP : 0 < M. Proof. apply (rg_pos 150). exact RM. Qed.
Lemma U0 : unit3 h0. Proof. apply S0. Qed.
Lemma U1 : unit3 h1. Proof. apply S1. Qed.
Lemma U2 : unit3 h2. Proof. apply S2. Qed.
Ltac nn := pose proof (norm_nonneg p0); pose proof (norm_nonneg p1); pose proof (norm_nonneg p2); pose proof (norm_nonneg p3); pose proof (norm_nonneg p6); pose proof (norm_nonneg T); pose proof MP.
Lemma cv_le : 1001 / 1000 * (norm cv + norm p0 + norm p1 + norm p2 + norm p3) <= M.
Proof. unfold cv. pose proof (norm_vsub_le T (mvec Q p6)) as N. rewrite norm_SO3 in N by apply MQ. nn. lra. Qed.
Lemma c26_le x1 : 1001 / 1000 * norm (c26 x1) <= M.
Proof. unfold c26. pose proof (norm_vsub_le (rotate h0 (- x1) cv) (vadd p0 p1)) as N. rewrite PropSub2.turn_norm in N by exact U0. pose proof (norm_triangle p0 p1). pose proof cv_le. nn. lra. Qed.
Lemma c2_le x3 : 1001 / 1000 * norm (c2 x3) <= M.
Proof. unfold c2. pose proof (norm_triangle p2 (rotate h2 x3 p3)) as N. rewrite PropSub2.turn_norm in N by exact U2. nn. lra. Qed.
Lemma v_ok : vc M 2225 (w_v A P6 R06 pT) cv.
Proof.
  nn. pose proof cv_le. pose proof (norm_nonneg cv). unfold w_v, cv.
  assert (VM : vc M (2200 + 0 + 23) (g_mv A R06 P6) (mvec Q p6)) by (apply vc_mv; try assumption; try lra; [apply RM'; lia|apply vc_exact; [exact F6|lra]]).
  assert (VS : vc M (0 + (2200 + 0 + 23) + 2) (g_vsub A pT (g_mv A R06 P6)) (vsub T (mvec Q p6))) by (apply vc_sub; try assumption; try lra; [apply RM'; lia|apply vc_exact; [exact FT|lra]|fold cv; lra]).
  eapply vc_weak; [lra| |exact VS]. lra.
Qed.
Lemma p26_ok (x1 : b64) : bfin x1 -> vc M 3395 (w_p26 A H0 P0 P1 P6 R06 pT x1) (c26 (bval x1)).
Proof.
  intros FX. nn. pose proof cv_le. pose proof (norm_nonneg cv) as CN. pose proof (c26_le (bval x1)) as NC. pose proof (norm_nonneg (c26 (bval x1))). unfold w_p26, c26, w_R01.
  assert (VM : vc M (1143 + 2225 + 23) (g_mv A (v3cols (g_rot A H0 x1)) (w_v A P6 R06 pT)) (mvec (mT (rot h0 (bval x1))) cv)).
  { apply vc_mv; try assumption; try lra; [apply RM'; lia| |apply v_ok]. apply mc_T. apply rot_mc; assumption. }
  rewrite (rot_T h0 (bval x1)), rot_rotate in VM by exact U0.
  assert (VA : vc M (0 + 0 + 2) (g_vadd A P0 P1) (vadd p0 p1)) by (pose proof (norm_triangle p0 p1); apply vc_add; try assumption; try lra; [apply RM'; lia|apply vc_exact; [assumption|lra]|apply vc_exact; [assumption|lra]]).
  assert (VS : vc M (1143 + 2225 + 23 + (0 + 0 + 2) + 2) (g_vsub A (g_mv A (v3cols (g_rot A H0 x1)) (w_v A P6 R06 pT)) (g_vadd A P0 P1)) (vsub (rotate h0 (- bval x1) cv) (vadd p0 p1))) by (apply vc_sub; try assumption; try lra; [apply RM'; lia|fold (c26 (bval x1)); lra]).
  eapply vc_weak; [lra| |exact VS]. lra.
Qed.
Lemma p2_ok (x3 : b64) : bfin x3 -> vc M 1168 (w_p2 A H2 P2 P3 x3) (c2 (bval x3)).
Proof.
  intros FX. nn. pose proof (c2_le (bval x3)) as NC. pose proof (norm_nonneg (c2 (bval x3))). unfold w_p2, c2.
  assert (VM : vc M (1143 + 0 + 23) (g_mv A (g_rot A H2 x3) P3) (mvec (rot h2 (bval x3)) p3)).
  { apply vc_mv; try assumption; try lra; [apply RM'; lia| |apply vc_exact; [exact F3|lra]]. apply rot_mc; assumption. }
  rewrite rot_rotate in VM by exact U2.
  assert (VS : vc M (0 + (1143 + 0 + 23) + 2) (g_vadd A P2 (g_mv A (g_rot A H2 x3) P3)) (vadd p2 (rotate h2 (bval x3) p3))) by (apply vc_add; try assumption; try lra; [apply RM'; lia|apply vc_exact; [exact F2|lra]|fold (c2 (bval x3)); lra]).
  eapply vc_weak; [lra| |exact VS]. lra.
Qed.
Lemma vc_le m c x v : 0 < m -> c <= 100000 -> 1001 / 1000 * norm v <= m -> vc m c x v -> norm (vval x) <= m.
Proof.
  intros MP0 C N (_ & E & _). pose proof (norm_dist_le (vval x) v) as D. apply Rabs_le_inv in D. pose proof uu_pos. assert (c * (uu * m) <= 100000 * (uu * m)) by (apply Rmult_le_compat_r; [apply Rmult_le_pos; lra|lra]).
  assert (100000 * (uu * m) <= 1 / 100000 * m) by (rewrite <- Rmult_assoc; apply Rmult_le_compat_r; [lra|rewrite uu_val'; lra]). lra.
Qed.
Lemma vc_stored m c x v : 0 < m -> c <= 100000 -> 1001 / 1000 * norm v <= m -> vc m c x v -> stored3 m x (vval x) /\ stored m (l3 A x) (vval x) /\ vtr 0 m (l3 A x) (vval x).
Proof.
  intros MP0 C N V. pose proof (vc_le m c x v MP0 C N V) as NV. destruct V as ((V0 & V1 & V2) & _ & _).
  assert (ST : stored3 m x (vval x)) by (repeat split; assumption). split; [exact ST|]. split; [|apply (PropSub4.stored3_vtr m); [lra|exact ST]].
  exists (w0 x), (w1 x), (w2 x). repeat split; assumption.
Qed.
Lemma ey_val : vval (g_ey A) = ey.
Proof. unfold SpecRound.vval, g_ey, ey. cbn [w0 w1 w2]. f_equal. apply PropElbow.one_val. Qed.
Lemma ey_unit : unit3 ey. Proof. unfold unit3, norm2, dot, ey. cbn. ring. Qed.
Lemma d1_ok : tr 37 (1 * M) (w_d1 A P1 P2 P3) (dot ey (vadd (vadd p1 p2) p3)).
Proof.
  nn. pose proof (norm_triangle p1 p2). pose proof (norm_triangle (vadd p1 p2) p3). unfold w_d1.
  assert (VA : vc M (0 + 0 + 2) (g_vadd A P1 P2) (vadd p1 p2)) by (apply vc_add; try assumption; try lra; [apply RM'; lia|apply vc_exact; [assumption|lra]|apply vc_exact; [assumption|lra]]).
  assert (VB : vc M (0 + 0 + 2 + 0 + 2) (g_vadd A (g_vadd A P1 P2) P3) (vadd (vadd p1 p2) p3)) by (apply vc_add; try assumption; try lra; [apply RM'; lia|apply vc_exact; [assumption|lra]]).
  assert (VV : vtr 4 M (PropSub4.v3l (g_vadd A (g_vadd A P1 P2) P3)) (vadd (vadd p1 p2) p3)).
  { destruct VB as ((V0 & V1 & V2) & E & N). set (x := g_vadd A (g_vadd A P1 P2) P3) in *. set (v := vadd (vadd p1 p2) p3) in *. destruct (entry_le v) as (A0 & A1 & A2). destruct (entry_le (vsub (vval x) v)) as (B0 & B1 & B2).
    exists (w0 x), (w1 x), (w2 x). replace (0 + 0 + 2 + 0 + 2) with 4 in E by ring.
    split; [reflexivity|]. split; [split; [exact V0|]; split; [eapply Rle_trans; [exact B0|exact E]|lra]|]. split; [split; [exact V1|]; split; [eapply Rle_trans; [exact B1|exact E]|lra]|].
    split; [split; [exact V2|]; split; [eapply Rle_trans; [exact B2|exact E]|lra]|]. exact N. }
  assert (VE : vtr 0 1 (PropSub4.v3l (g_ey A)) ey).
  { apply PropSub4.stored3_vtr; [lra|]. pose proof ey_val as EV. unfold SpecRound.vval in EV. split; [reflexivity|]. split; [apply PropElbow.one_val|]. split; [reflexivity|]. split; [symmetry; exact EV|]. rewrite (norm_unit _ ey_unit). lra. }
  pose proof (PropSub4.dot_tr L bdot HD 0 4 1 M _ _ _ _ ltac:(lra) ltac:(lra) (rg_1 390 ltac:(lia)) (RM' 390 ltac:(lia)) VE VV) as D.
  eapply tr_weak; [| |exact D]; [lra|]. lra.
Qed.

Lemma base_height (z : gnormalizer A) (t1 x1 : b64) : In t1 (g_subproblem4 A f (g_ey A) (w_v A P6 R06 pT) (g_vneg A H0) (w_d1 A P1 P2 P3)) -> g_normalize A b_rem z 0 t1 = Ok (Some x1) -> bfin x1 -> Rabs (bval x1) <= 1024 ->
  Rabs (dot ey (c26 (bval x1)) - dot ey (vadd p2 p3)) <= 8600 * (uu * M).
Proof.
  intros I N FX BX. pose proof (joint_fin _ _ _ _ _ _ N FX) as F1'. nn. pose proof uu_pos as UP. assert (UM : 0 < uu * M) by (apply Rmult_lt_0_compat; lra).
  pose proof cv_le as CL. pose proof (norm_nonneg cv) as CN. pose proof v_ok as VO. destruct (vc_stored M 2225 (w_v A P6 R06 pT) cv MP ltac:(lra) ltac:(lra) VO) as (SV & _ & TV). set (v := w_v A P6 R06 pT) in *.
  pose proof d1_ok as D1. set (d := w_d1 A P1 P2 P3) in *.
  assert (SE : stored3 1 (g_ey A) ey). { pose proof ey_val as EV. unfold SpecRound.vval in EV. split; [reflexivity|]. split; [apply PropElbow.one_val|]. split; [reflexivity|]. split; [symmetry; exact EV|]. rewrite (norm_unit _ ey_unit). lra. }
  assert (R1 : rg 190 1) by (apply rg_1; lia). assert (RMM : rg 190 M) by (apply RM'; lia). pose proof (neg_axis3 H0 h0 L bdot S0) as SN.
  pose proof (PropSub4.C106_residual L f bdot _ _ _ _ _ _ _ 1 M t1 HD HG HF R1 RMM SE SV SN (proj1 D1) I F1') as RS. rewrite b42 in RS.
  assert (B1 : Rabs (bval t1) <= 8).
  { destruct (PropSub4.axis3_vtr _ _ SN) as [UN TN]. apply (sub4_small L f bdot (g_ey A) v (g_vneg A H0) d ey (vval v) (vneg h0) 1 M t1); try assumption; [apply PropSub4.stored3_vtr; [lra|exact SE]|exact (proj1 D1)]. }
  unfold displacement in RS. rewrite turn_neg in RS.
  assert (JT : norm (vsub (rotate h0 (- bval x1) cv) (rotate h0 (- bval t1) cv)) <= 4200 * uu * norm cv).
  { rewrite <- !turn_neg. apply (joint_turn L bdot z 0 t1 x1); try assumption; [apply SN|lra]. }
  destruct D1 as (_ & D1 & _). destruct VO as (_ & VE & _).
  assert (A1 : Rabs (dot ey (rotate h0 (- bval x1) cv) - dot ey (rotate h0 (- bval t1) cv)) <= 4200 * (uu * M)).
  { eapply Rle_trans; [apply near_dot|]. rewrite (norm_unit _ ey_unit), Rmult_1_l. eapply Rle_trans; [exact JT|]. rewrite Rmult_assoc. apply Rmult_le_compat_l; [lra|]. apply Rmult_le_compat_l; lra. }
  assert (A2 : Rabs (dot ey (rotate h0 (- bval t1) (vval v)) - dot ey (rotate h0 (- bval t1) cv)) <= 2225 * (uu * M)).
  { eapply Rle_trans; [apply near_dot|]. rewrite (norm_unit _ ey_unit), Rmult_1_l, PropMove.rotate_sub by exact U0. exact VE. }
  assert (EQ : dot ey (c26 (bval x1)) - dot ey (vadd p2 p3) = dot ey (rotate h0 (- bval x1) cv) - dot ey (vadd (vadd p1 p2) p3)).
  { unfold c26. rewrite dot_vsub_r, !dot_vadd_r. assert (Z : dot ey p0 = 0) by (unfold dot, ey; cbn [vx vy vz]; rewrite Y0; ring). rewrite Z. ring. }
  rewrite EQ. rewrite Rmult_1_l in D1, RS. apply Rabs_le_inv in D1. apply Rabs_le_inv in RS. apply Rabs_le_inv in A1. apply Rabs_le_inv in A2. apply Rabs_le. lra.
Qed.
(** the elbow reaches as far as a vector whose length is measured with an error *)
Lemma elbow_at (z : gnormalizer A) (v : v3 b64) (c : vec3) (t3 x3 : b64) l : vc M 8000 v c -> 1001 / 1000 * norm c <= M -> g_subproblem3 A (l3 A P3) (l3 A P2) (l3 A H2) (l_norm A (l3 A v)) = Ok l -> In t3 l ->
  g_normalize A b_rem z 2 t3 = Ok (Some x3) -> bfin x3 -> Rabs (bval x3) <= 1024 -> M <= 1048576 * norm (perp h2 p2) -> M <= 1048576 * norm (perp h2 p3) ->
  Rabs (dot (c2 (bval x3)) (c2 (bval x3)) - dot c c) <= 536896000 * uu * (M * M).
Proof.
  intros VO CL E I N FX BX B2 B3. nn. pose proof uu_pos as UP. assert (UM : 0 < uu * M) by (apply Rmult_lt_0_compat; lra). assert (UMM : 0 < uu * (M * M)) by (rewrite <- Rmult_assoc; apply Rmult_lt_0_compat; lra).
  pose proof (norm_nonneg c) as CN.
  destruct (vc_stored M 8000 _ _ MP ltac:(lra) CL VO) as (SV & _ & TV).
  destruct (tr_norm bdot 0 M _ _ HD ltac:(unfold cb; lra) (RM' 390 ltac:(lia)) TV) as ((FD & DE & _) & D0). set (d := b_sqrt (bdot (l3 A v) (l3 A v))) in *.
  assert (ND : Rabs (norm (vval v) - norm c) <= 8000 * (uu * M)) by (eapply Rle_trans; [apply norm_dist_le|apply VO]).
  assert (DC : Rabs (bval d - norm c) <= 8016 * (uu * M)). { apply Rabs_le_inv in DE. apply Rabs_le_inv in ND. apply Rabs_le. lra. }
  assert (UM1 : 8016 * (uu * M) <= 1 / 10000 * M) by (rewrite <- Rmult_assoc; apply Rmult_le_compat_r; [lra|rewrite uu_val'; lra]).
  assert (DM : Rabs (bval d) <= M) by (apply Rabs_le_inv in DC; apply Rabs_le; lra).
  assert (MO : moderate M) by exact (RM' 380 ltac:(lia)).
  destruct (vc_stored M 0 P2 p2 MP ltac:(lra) ltac:(lra) ltac:(apply vc_exact; [assumption|lra])) as (_ & S2' & _). destruct (vc_stored M 0 P3 p3 MP ltac:(lra) ltac:(lra) ltac:(apply vc_exact; [assumption|lra])) as (_ & S3' & _).
  assert (SK : stored_axis (l3 A H2) h2). { destruct S2 as (UU & G0 & G1 & G2 & G3). split; [exact UU|]. exists (w0 H2), (w1 H2), (w2 H2). tauto. }
  destruct (PropReach.residual L bdot HD HA (l3 A P3) (l3 A P2) (l3 A H2) d p3 p2 h2 M MO S3' S2' SK FD DM B3 B2 l t3 E I) as (FT3 & BT3 & RS). unfold reach_sq in RS.
  assert (JT : norm (vsub (rotate h2 (bval x3) p3) (rotate h2 (bval t3) p3)) <= 4200 * uu * norm p3) by (apply (joint_turn L bdot z 2 t3 x3); try assumption; [exact U2|lra]).
  assert (J2 : norm (vsub (c2 (bval x3)) (vadd p2 (rotate h2 (bval t3) p3))) <= 4200 * (uu * M)).
  { unfold c2. replace (vsub (vadd p2 (rotate h2 (bval x3) p3)) (vadd p2 (rotate h2 (bval t3) p3))) with (vsub (rotate h2 (bval x3) p3) (rotate h2 (bval t3) p3)) by (generalize (rotate h2 (bval x3) p3) (rotate h2 (bval t3) p3) p2; intros; unfold vsub, vadd; cbn [vx vy vz]; f_equal; ring).
    eapply Rle_trans; [exact JT|]. rewrite Rmult_assoc. apply Rmult_le_compat_l; [lra|]. apply Rmult_le_compat_l; lra. }
  pose proof (c2_le (bval x3)). pose proof (c2_le (bval t3)) as CT. unfold c2 in CT. pose proof (norm_nonneg (c2 (bval x3))). pose proof (norm_nonneg (vadd p2 (rotate h2 (bval t3) p3))).
  pose proof (near_sq (c2 (bval x3)) (vadd p2 (rotate h2 (bval t3) p3)) M _ ltac:(lra) ltac:(lra) J2) as Q1.
  assert (Q2 : Rabs (bval d * bval d - dot c c) <= 16032 * (uu * (M * M))).
  { rewrite <- norm_sq. replace (bval d * bval d - norm c * norm c) with ((bval d - norm c) * (bval d + norm c)) by ring. rewrite Rabs_mult. apply Rle_trans with (8016 * (uu * M) * (2 * M)); [|right; ring].
    apply Rmult_le_compat; try apply Rabs_pos; [exact DC|]. rewrite Rabs_right by lra. rewrite Rabs_right in DM by lra. lra. }
  replace (2 * M * (4200 * (uu * M))) with (8400 * (uu * (M * M))) in Q1 by ring. rewrite (Rmult_assoc 536896000).
  apply Rabs_le_inv in Q1. apply Rabs_le_inv in Q2. apply Rabs_le_inv in RS. apply Rabs_le. lra.
Qed.
(** the shoulder turns the elbow's reach to a vector of that length and height *)
Lemma shoulder_raw (v : v3 b64) (c : vec3) (t2 x3 : b64) r : vc M 8000 v c -> 1001 / 1000 * norm c <= M -> bfin x3 -> g_subproblem1 A (l3 A (w_p2 A H2 P2 P3 x3)) (l3 A v) (l3 A H1) = Ok t2 -> 1 <= r <= 1024 -> M <= r * norm (perp ey (c2 (bval x3))) ->
  Rabs (dot ey c - dot ey (vadd p2 p3)) <= 8610 * (uu * M) ->
  Rabs (dot (c2 (bval x3)) (c2 (bval x3)) - dot c c) <= 536896000 * uu * (M * M) ->
  bfin t2 /\ Rabs (bval t2) <= 16 / 5 /\ norm (vsub (rotate h1 (bval t2) (c2 (bval x3))) c) <= sqrt_eps + 542790000 * uu * M * r.
Proof.
  intros VO CL FX3 E R1 OFF HH SQ. nn. pose proof uu_pos as UP. assert (UM : 0 < uu * M) by (apply Rmult_lt_0_compat; lra).
  pose proof (p2_ok x3 FX3) as VO2. pose proof (c2_le (bval x3)) as CL2.
  assert (HC2 : dot ey (c2 (bval x3)) = dot ey (vadd p2 p3)) by (unfold c2; rewrite !dot_vadd_r, (flat h2) by exact E2; reflexivity).
  set (w := w_p2 A H2 P2 P3 x3) in *. set (b := c2 (bval x3)) in *. rewrite <- HC2 in HH.
  pose proof (norm_nonneg c) as CN. pose proof (norm_nonneg b) as BN.
  destruct (vc_stored M 8000 _ _ MP ltac:(lra) CL VO) as (_ & _ & TV). destruct (vc_stored M 1168 _ _ MP ltac:(lra) CL2 VO2) as (_ & _ & TW).
  destruct VO as (_ & VE & _). destruct VO2 as (_ & WE & _).
  assert (HB : Rabs (dot b h1 - dot c h1) <= 8610 * uu * M).
  { rewrite Rmult_assoc. destruct E1 as [-> | ->]; rewrite ?dot_vneg_r, (dot_comm b), (dot_comm c); apply Rabs_le_inv in HH; apply Rabs_le; lra. }
  assert (OFF1 : M <= r * norm (perp h1 b)) by (rewrite (same_perp h1 ey b E1); exact OFF).
  pose proof (radii h1 b c M r (536896000 * uu) (8610 * uu) U1 MP (proj1 R1) ltac:(lra) ltac:(lra) ltac:(lra) ltac:(lra) SQ HB OFF1) as RD.
  assert (RD' : Rabs (norm (perp h1 b) - norm (perp h1 c)) <= 536913220 * (uu * M * r)) by (eapply Rle_trans; [exact RD|right; ring]). clear RD.
  pose proof (perp_near h1 (vval v) c U1) as PV. pose proof (perp_near h1 (vval w) b U1) as PW.
  assert (UMr : uu * M <= uu * M * r). { rewrite <- (Rmult_1_r (uu * M)) at 1. apply Rmult_le_compat_l; lra. }
  assert (UMr2 : uu * M * r * r <= 1 / 8000000000 * M).
  { replace (uu * M * r * r) with (uu * (r * r) * M) by ring. apply Rmult_le_compat_r; [lra|]. assert (r * r <= 1024 * 1024) by (apply Rmult_le_compat; lra). apply Rle_trans with (uu * (1024 * 1024)); [apply Rmult_le_compat_l; lra|rewrite uu_val'; lra]. }
  assert (RV : M <= 6 / 5 * r * norm (perp h1 (vval v)) /\ M <= 6 / 5 * r * norm (perp h1 (vval w))).
  { apply Rabs_le_inv in RD'. apply Rabs_le_inv in PV. apply Rabs_le_inv in PW.
    assert (G1 : r * (norm (perp h1 b) - 536913220 * (uu * M * r) - 8000 * (uu * M)) <= r * norm (perp h1 (vval v))) by (apply Rmult_le_compat_l; lra).
    assert (G2 : r * (norm (perp h1 b) - 1168 * (uu * M)) <= r * norm (perp h1 (vval w))) by (apply Rmult_le_compat_l; lra).
    assert (G3 : uu * M * r <= uu * M * r * r). { rewrite <- (Rmult_1_r (uu * M * r)) at 1. apply Rmult_le_compat_l; [apply Rmult_le_pos; lra|lra]. }
    replace (r * (norm (perp h1 b) - 536913220 * (uu * M * r) - 8000 * (uu * M))) with (r * norm (perp h1 b) - 536913220 * (uu * M * r * r) - 8000 * (uu * M * r)) in G1 by ring.
    replace (r * (norm (perp h1 b) - 1168 * (uu * M))) with (r * norm (perp h1 b) - 1168 * (uu * M * r)) in G2 by ring. split; lra. }
  destruct RV as [RV RW]. destruct (PropSub4.axis3_vtr _ _ S1) as [_ TK].
  destruct (sub1_turn L bdot M (6 / 5 * r) (l3 A w) (l3 A v) (l3 A H1) (vval w) (vval v) h1 t2 HD HA (RM' 380 ltac:(lia)) U1 TK TW TV ltac:(lra) RW RV E) as (FT2 & BT2 & RS).
  split; [exact FT2|]. split; [exact BT2|].
  assert (RN : Rabs (norm (perp h1 (vval w)) - norm (perp h1 (vval v))) <= 536913220 * (uu * M * r) + 9168 * (uu * M)).
  { apply Rabs_le_inv in RD'. apply Rabs_le_inv in PV. apply Rabs_le_inv in PW. apply Rabs_le. lra. }
  assert (RH : Rabs (dot (vval w) h1 - dot (vval v) h1) <= 17778 * (uu * M)).
  { pose proof (near_dot_l h1 (vval w) b) as D1. pose proof (near_dot_l h1 (vval v) c) as D2. rewrite (norm_unit _ U1), Rmult_1_l in D1, D2. apply Rabs_le_inv in D1. apply Rabs_le_inv in D2. apply Rabs_le_inv in HB. apply Rabs_le. lra. }
  assert (TB : norm (vsub (rotate h1 (bval t2) (vval w)) (rotate h1 (bval t2) b)) <= 1168 * (uu * M)) by (rewrite PropMove.rotate_sub by exact U1; exact WE).
  assert (EQ : vsub (rotate h1 (bval t2) b) c = vadd (vsub (rotate h1 (bval t2) b) (rotate h1 (bval t2) (vval w))) (vadd (vsub (rotate h1 (bval t2) (vval w)) (vval v)) (vsub (vval v) c))).
  { generalize (rotate h1 (bval t2) b) (rotate h1 (bval t2) (vval w)) (vval v) c. intros. unfold vsub, vadd. cbn [vx vy vz]. f_equal; ring. }
  rewrite EQ. eapply Rle_trans; [apply norm_triangle|]. eapply Rle_trans; [apply Rplus_le_compat_l; apply norm_triangle|]. rewrite (norm_vsub_sym (rotate h1 (bval t2) b)).
  replace (4800000 * (6 / 5 * r) * (uu * M)) with (5760000 * (uu * M * r)) in RS by field. replace (542790000 * uu * M * r) with (542790000 * (uu * M * r)) by ring. lra.
Qed.
Lemma shoulder_at (z : gnormalizer A) (v : v3 b64) (c : vec3) (t2 x2 x3 : b64) r : vc M 8000 v c -> 1001 / 1000 * norm c <= M -> bfin x3 -> g_subproblem1 A (l3 A (w_p2 A H2 P2 P3 x3)) (l3 A v) (l3 A H1) = Ok t2 ->
  g_normalize A b_rem z 1 t2 = Ok (Some x2) -> bfin x2 -> Rabs (bval x2) <= 1024 -> 1 <= r <= 1024 -> M <= r * norm (perp ey (c2 (bval x3))) ->
  Rabs (dot ey c - dot ey (vadd p2 p3)) <= 8610 * (uu * M) ->
  Rabs (dot (c2 (bval x3)) (c2 (bval x3)) - dot c c) <= 536896000 * uu * (M * M) ->
  norm (vsub (rotate h1 (bval x2) (c2 (bval x3))) c) <= sqrt_eps + 542800000 * uu * M * r.
Proof.
  intros VO CL FX3 E N FX BX R1 OFF HH SQ. nn. pose proof uu_pos as UP. assert (UM : 0 < uu * M) by (apply Rmult_lt_0_compat; lra). pose proof (c2_le (bval x3)) as CL2.
  destruct (shoulder_raw v c t2 x3 r VO CL FX3 E R1 OFF HH SQ) as (FT2 & BT2 & RS). set (b := c2 (bval x3)) in *. pose proof (norm_nonneg b) as BN.
  pose proof (joint_turn L bdot z 1 t2 x2 h1 U1 N FX BX ltac:(lra) b) as JT.
  assert (JM : norm (vsub (rotate h1 (bval x2) b) (rotate h1 (bval t2) b)) <= 4200 * (uu * M)) by (eapply Rle_trans; [exact JT|]; rewrite Rmult_assoc; apply Rmult_le_compat_l; [lra|]; apply Rmult_le_compat_l; lra).
  assert (UMr : uu * M <= uu * M * r). { rewrite <- (Rmult_1_r (uu * M)) at 1. apply Rmult_le_compat_l; lra. }
  assert (EQ : vsub (rotate h1 (bval x2) b) c = vadd (vsub (rotate h1 (bval x2) b) (rotate h1 (bval t2) b)) (vsub (rotate h1 (bval t2) b) c)).
  { generalize (rotate h1 (bval x2) b) (rotate h1 (bval t2) b) c. intros. unfold vsub, vadd. cbn [vx vy vz]. f_equal; ring. }
  rewrite EQ. eapply Rle_trans; [apply norm_triangle|]. replace (542790000 * uu * M * r) with (542790000 * (uu * M * r)) in RS by ring. replace (542800000 * uu * M * r) with (542800000 * (uu * M * r)) by ring. lra.
Qed.
Lemma elbow (z : gnormalizer A) (x1 t3 x3 : b64) l : bfin x1 -> g_subproblem3 A (l3 A P3) (l3 A P2) (l3 A H2) (l_norm A (l3 A (w_p26 A H0 P0 P1 P6 R06 pT x1))) = Ok l -> In t3 l ->
  g_normalize A b_rem z 2 t3 = Ok (Some x3) -> bfin x3 -> Rabs (bval x3) <= 1024 -> M <= 1048576 * norm (perp h2 p2) -> M <= 1048576 * norm (perp h2 p3) ->
  Rabs (dot (c2 (bval x3)) (c2 (bval x3)) - dot (c26 (bval x1)) (c26 (bval x1))) <= 536896000 * uu * (M * M).
Proof.
  intros FX1. apply elbow_at; [|apply c26_le]. nn. eapply vc_weak; [lra| |apply p26_ok; exact FX1]. lra.
Qed.
Lemma shoulder (z : gnormalizer A) (x1 t2 x2 x3 : b64) r : bfin x1 -> bfin x3 -> g_subproblem1 A (l3 A (w_p2 A H2 P2 P3 x3)) (l3 A (w_p26 A H0 P0 P1 P6 R06 pT x1)) (l3 A H1) = Ok t2 ->
  g_normalize A b_rem z 1 t2 = Ok (Some x2) -> bfin x2 -> Rabs (bval x2) <= 1024 -> 1 <= r <= 1024 -> M <= r * norm (perp ey (c2 (bval x3))) ->
  Rabs (dot ey (c26 (bval x1)) - dot ey (vadd p2 p3)) <= 8600 * (uu * M) ->
  Rabs (dot (c2 (bval x3)) (c2 (bval x3)) - dot (c26 (bval x1)) (c26 (bval x1))) <= 536896000 * uu * (M * M) ->
  norm (vsub (rotate h1 (bval x2) (c2 (bval x3))) (c26 (bval x1))) <= sqrt_eps + 542800000 * uu * M * r.
Proof.
  intros FX1 FX3 E N FX BX R1 OFF HH SQ. nn. pose proof uu_pos as UP. assert (UM : 0 < uu * M) by (apply Rmult_lt_0_compat; lra).
  apply (shoulder_at z (w_p26 A H0 P0 P1 P6 R06 pT x1) (c26 (bval x1)) t2); try assumption; [|apply c26_le|lra]. eapply vc_weak; [lra| |apply p26_ok; exact FX1]. lra.
Qed.
End Arm.
