(** The last three joints of robot6_sphericalwrist_invkin in binary64: how far they leave the tool from the orientation it
    should have. *)
From Coq Require Import Reals ZArith List Bool Lra Lia Psatz.
From Flocq Require Import Core.Core IEEE754.BinarySingleNaN.
From Verif Require Import LinAlg RealAux Py FactsReal FactsLinAlg ModelRot SpecRot FactsRot FactsNorm SpecSub FactsSub ModelFloat ModelFloat2 ModelFloat3 ModelFloat6 ModelFloat9 ModelFloat10 ModelFloat11 SpecRound FactsRound FactsB64 FactsExact FactsTrack SpecArc SpecSub4 SpecRpy FactsIk64 FactsPath64 FactsJoint64 FactsArm64.
From Verif Require FactsIkGeo PropSub4 PropSub2 PropMove.
Import ListNotations.
Open Scope R_scope.

Lemma dot_unit_axis h v : h = v \/ h = vneg v -> forall w, dot w v = 0 -> dot w h = 0.
Proof. intros [-> | ->] w E; [exact E|rewrite dot_vneg_r; lra]. Qed.
Lemma axis_self h : unit3 h -> on_axis h h.
Proof. intros U. unfold on_axis, perp. unfold unit3, norm2 in U. rewrite U. unfold vsub, vscale, vzero. cbn. f_equal; ring. Qed.
Section Wrist.
Context (L : libm) (bdot : list b64 -> list b64 -> b64) (HD : In bdot b_dots) (HL : libm_ok L (bpow radix2 (-52))) (HT : libm_total L) (HA : libm_arc_ok L (8 * uu)).
Notation A := (b64_arith L bdot).
Notation vval := (SpecRound.vval (A := b64_arith L bdot) bval).
Notation vfin := (SpecRound.vfin (A := b64_arith L bdot) bfin).
Notation mc := (FactsPath64.mc L bdot).
Notation vc := (FactsPath64.vc L bdot).
Lemma vc1_stored c x v : 0 <= c <= 100000 -> vc 1 c x v -> stored 2 (l3 A x) (vval x) /\ vtr 0 2 (l3 A x) (vval x).
Proof.
  intros C (V & E & N). pose proof uu_pos. assert (NV : norm (vval x) <= 2).
  { pose proof (norm_dist_le (vval x) v) as D. apply Rabs_le_inv in D. pose proof (cu c C) as CU. rewrite Rmult_1_r in E. lra. }
  destruct V as (V0 & V1 & V2). split; [exists (w0 x), (w1 x), (w2 x); repeat split; assumption|]. apply (PropSub4.stored3_vtr 2); [lra|]. repeat split; assumption.
Qed.
Lemma axis_l x k : stored_axis3 x k -> stored_axis (l3 A x) k.
Proof. intros (UU & G0 & G1 & G2 & G3). split; [exact UU|]. exists (w0 x), (w1 x), (w2 x). tauto. Qed.
Lemma rg2 n : (1 <= n)%Z -> rg n 2.
Proof. intros Hn. split; [apply Rle_trans with (bpow radix2 0); [apply bpow_le; lia|cbn; lra]|change 2 with (bpow radix2 1); apply bpow_le; lia]. Qed.

Context (H3 H4 H5 : v3 b64) (R03 R06 : m3 b64) (h3 h4 h5 : vec3) (N Q : mat3).
Context (S3 : stored_axis3 H3 h3) (S4 : stored_axis3 H4 h4) (S5 : stored_axis3 H5 h5) (MN : mc 3475 R03 N) (MQ : mc 2200 R06 Q).
Context (P34 : dot h3 h4 = 0) (P35 : h5 = h3 \/ h5 = vneg h3) (r : R) (R1 : 1 <= r <= 1024).
Definition u4 : vec3 := mvec (mT N) (mvec Q h5).
Context (OFF : 1 <= r * norm (perp h3 u4)).
Lemma W3 : unit3 h3. Proof. apply S3. Qed.
Lemma W4 : unit3 h4. Proof. apply S4. Qed.
Lemma W5 : unit3 h5. Proof. apply S5. Qed.
Lemma SN : is_SO3 N. Proof. apply MN. Qed.
Lemma SQ : is_SO3 Q. Proof. apply MQ. Qed.
Lemma P45 : dot h4 h5 = 0. Proof. apply (dot_unit_axis h5 h3 P35). rewrite dot_comm. exact P34. Qed.
Notation v4 := (g_mv A (g_mm A (v3cols R03) R06) H5).
Lemma v4_ok : vc 1 5735 v4 u4.
Proof.
  assert (MM : mc (3475 + 2200 + 23) (g_mm A (v3cols R03) R06) (mmul (mT N) Q)) by (apply mc_mul; try assumption; try lra; apply mc_T; assumption).
  assert (V : vc 1 (3475 + 2200 + 23 + 14 + 23) v4 (mvec (mmul (mT N) Q) h5)) by (apply vc_mv; try assumption; try lra; [apply rg_1; lia|apply axis_vc; exact S5]).
  rewrite mvec_mmul in V. eapply vc_weak; [lra| |exact V]. lra.
Qed.
Lemma u4_unit : norm u4 = 1.
Proof. unfold u4. rewrite !norm_SO3; [apply norm_unit; exact W5|apply SQ|apply SO3_T; apply SN]. Qed.
Lemma rr : / (r * r) <= 1 /\ 1 <= 1048576 * / (r * r).
Proof. assert (1 <= r * r) by nra. assert (r * r <= 1048576) by nra. split; [rewrite <- Rinv_1; apply Rinv_le_contravar; lra|]. assert (/ 1048576 <= / (r * r)) by (apply Rinv_le_contravar; lra). lra. Qed.
Lemma gap : let be := 9 / 20 / r in 0 < be /\ bpow radix2 (-36) * (1 * 1) <= be * be /\ 4 * eps <= be * be * (2 * 2) /\ be * be * (2 * 2) <= cone_gap (vval H5) (vval v4) h3 h4.
Proof.
  cbv zeta. destruct rr as [RA RB]. assert (I : 0 < / r) by (apply Rinv_0_lt_compat; lra).
  assert (EB : 9 / 20 / r * (9 / 20 / r) = 81 / 400 * / (r * r)) by (field; lra). rewrite EB. split; [unfold Rdiv; nra|].
  assert (ES : eps = 1 / 4503599627370496) by (rewrite <- sqrt_eps_sq; unfold sqrt_eps; field). split; [cbn; lra|]. split; [rewrite ES; lra|].
  destruct v4_ok as (_ & VE & _). destruct (proj2 (axis_vc L bdot H5 h5 S5)) as (_ & HE & _). rewrite Rmult_1_r in VE, HE. pose proof uu_pos as UP. pose proof uu_val' as UV.
  set (q := vval v4) in *. set (p := vval H5) in *.
  assert (PP : 1 - 30 * uu <= dot p p). { pose proof (norm_dist_le p h5) as D. rewrite (norm_unit _ W5) in D. apply Rabs_le_inv in D. rewrite <- norm_sq. assert (X : (1 - 14 * uu) * (1 - 14 * uu) <= norm p * norm p) by (apply Rmult_le_compat; rewrite UV in *; lra). assert (0 <= 14 * uu * (14 * uu)) by nra. lra. }
  assert (PK : Rabs (dot p h4) <= 14 * uu). { pose proof (near_dot h4 p h5) as D. rewrite P45, (norm_unit _ W4), (dot_comm h4) in D. replace (dot p h4 - 0) with (dot p h4) in D by ring. lra. }
  assert (QN : norm q <= 1 + 5735 * uu). { pose proof (norm_dist_le q u4) as D. rewrite u4_unit in D. apply Rabs_le_inv in D. lra. }
  assert (QP : 99 / 100 * / r <= norm (perp h3 q)).
  { pose proof (perp_near h3 q u4 W3) as D. apply Rabs_le_inv in D. assert (/ r <= norm (perp h3 u4)) by (apply (Rmult_le_reg_l r); [lra|]; rewrite Rinv_r by lra; exact OFF). assert (/ 1024 <= / r) by (apply Rinv_le_contravar; lra). rewrite UV in *. lra. }
  pose proof (perp_sq h3 q W3) as PS. assert (QQ : dot q q <= 1 + 12000 * uu). { rewrite <- norm_sq. apply Rle_trans with ((1 + 5735 * uu) * (1 + 5735 * uu)); [apply Rmult_le_compat; try apply norm_nonneg; exact QN|]. assert (5735 * uu * (5735 * uu) <= 100 * uu) by (rewrite UV; lra). lra. }
  assert (X : 98 / 100 * / (r * r) <= norm (perp h3 q) * norm (perp h3 q)). { apply Rle_trans with (99 / 100 * / r * (99 / 100 * / r)); [|apply Rmult_le_compat; lra]. rewrite Rinv_mult. assert (0 < / r * / r) by (apply Rmult_lt_0_compat; exact I). lra. }
  unfold cone_gap. rewrite P34. replace ((dot q h3 * dot q h3 + dot p h4 * dot p h4 - 2 * 0 * dot p h4 * dot q h3) / (1 - 0 * 0)) with (dot q h3 * dot q h3 + dot p h4 * dot p h4) by field.
  assert (K2 : dot p h4 * dot p h4 <= uu). { apply Rabs_le_inv in PK. assert (dot p h4 * dot p h4 <= 14 * uu * (14 * uu)) by nra. rewrite UV in *. lra. }
  rewrite UV in *. lra.
Qed.
(** the hypotheses of the theorems about subproblem2 *)
Lemma wrist_data : let p := vval H5 in let q := vval v4 in Rabs (dot p p - dot q q) <= bpow radix2 (-40) * (2 * 2) /\ 2 <= 11 / 5 * r * norm (perp h4 p) /\ 2 <= 11 / 5 * r * norm (perp h3 q) /\ 1 * 1 * (11 / 5 * r * (11 / 5 * r)) <= bpow radix2 34.
Proof.
  cbv zeta. pose proof uu_pos as UP. pose proof uu_val' as UV. pose proof v4_ok as VO. pose proof (proj2 (axis_vc L bdot H5 h5 S5)) as HO. assert (B34 : bpow radix2 34 = 17179869184) by (cbn; lra).
  destruct VO as (_ & VE & _). destruct HO as (_ & HE & _). rewrite Rmult_1_r in VE, HE. set (q := vval v4) in *. set (p := vval H5) in *.
  assert (NP : norm p <= 1 + 14 * uu) by (pose proof (norm_dist_le p h5) as D; rewrite (norm_unit _ W5) in D; apply Rabs_le_inv in D; lra).
  assert (PQ : Rabs (dot p p - dot q q) <= bpow radix2 (-40) * (2 * 2)).
  { assert (U5 : Rabs (dot p p - 1) <= 2 * 2 * (14 * uu)). { replace 1 with (dot h5 h5) by apply W5. apply near_sq; [lra|rewrite (norm_unit _ W5); lra|exact HE]. }
    assert (UQ : Rabs (dot q q - 1) <= 2 * 2 * (5735 * uu)). { replace 1 with (dot u4 u4) by (rewrite <- norm_sq, u4_unit; ring). apply near_sq; [|rewrite u4_unit; lra|exact VE]. pose proof (norm_dist_le q u4) as D; rewrite u4_unit in D; apply Rabs_le_inv in D. rewrite UV in *. lra. }
    apply Rabs_le_inv in U5. apply Rabs_le_inv in UQ. apply Rabs_le. cbn [bpow radix2]. rewrite UV in *. cbn. lra. }
  assert (PE : 2 <= 11 / 5 * r * norm (perp h4 p)).
  { pose proof (perp_near h4 p h5 W4) as D. pose proof (perp_sq h4 h5 W4) as PS. rewrite (dot_comm h5 h4), P45 in PS. replace (dot h5 h5) with 1 in PS by (symmetry; apply W5). pose proof (norm_nonneg (perp h4 h5)). assert (X1 : 1 <= norm (perp h4 h5)) by nra. apply Rabs_le_inv in D.
    assert (99 / 100 <= norm (perp h4 p)) by (rewrite UV in *; lra). assert (1 * (99 / 100) <= r * norm (perp h4 p)) by (apply Rmult_le_compat; lra). lra. }
  assert (QE : 2 <= 11 / 5 * r * norm (perp h3 q)).
  { pose proof (perp_near h3 q u4 W3) as D. apply Rabs_le_inv in D. assert (r * (norm (perp h3 u4) - 5735 * uu) <= r * norm (perp h3 q)) by (apply Rmult_le_compat_l; lra). assert (r * (5735 * uu) <= 1024 * (5735 * uu)) by (apply Rmult_le_compat_r; lra). rewrite UV in *. lra. }
  assert (RR : 1 * 1 * (11 / 5 * r * (11 / 5 * r)) <= bpow radix2 34) by (rewrite B34; assert (r * r <= 1024 * 1024) by (apply Rmult_le_compat; lra); lra).
  split; [exact PQ|]. split; [exact PE|]. split; [exact QE|exact RR].
Qed.
(** what subproblem2 leaves *)
Lemma wrist_raw l (t4 t5 : b64) : g_subproblem2 A (l3 A H5) (l3 A v4) (l3 A H3) (l3 A H4) = Ok l -> In (t4, t5) l ->
  bfin t4 /\ bfin t5 /\ Rabs (bval t4) <= 16 / 5 /\ Rabs (bval t5) <= 16 / 5 /\ norm (vsub (rotate h3 (bval t4) (rotate h4 (bval t5) h5)) u4) <= 416380000 * uu * r.
Proof.
  intros E I. pose proof uu_pos as UP. pose proof uu_val' as UV. pose proof v4_ok as VO. pose proof (proj2 (axis_vc L bdot H5 h5 S5)) as HO.
  destruct (vc1_stored 5735 _ _ ltac:(lra) VO) as [SV TV]. destruct (vc1_stored 14 _ _ ltac:(lra) HO) as [SH TH].
  destruct gap as (G0 & G1 & G2 & G3). set (be := 9 / 20 / r) in *. pose proof (axis_l _ _ S3) as A3. pose proof (axis_l _ _ S4) as A4.
  assert (K1 : 1 <= 1 * (1 - dot h3 h4 * dot h3 h4)) by (rewrite P34; lra).
  assert (R2 : bpow radix2 (-150) <= 2 <= bpow radix2 150) by (apply (rg2 150); lia).
  assert (B34 : bpow radix2 34 = 17179869184) by (cbn; lra).
  destruct (PropSub2.C107_two L bdot _ _ _ _ _ _ _ _ 2 1 be HD R2 SH SV A3 A4 ltac:(lra) K1 ltac:(lra) G0 G1 G2 G3) as [X | (x & y & X)]; [rewrite X in E; discriminate E|].
  assert (EL : l = [x; y]) by congruence. subst l.
  destruct VO as (_ & VE & _). destruct HO as (_ & HE & _). rewrite Rmult_1_r in VE, HE. set (q := vval v4) in *. set (p := vval H5) in *.
  destruct wrist_data as (PQ & PE & QE & RR). fold p q in PQ, PE, QE.
  destruct (PropSub2.C107_residual L bdot (l3 A H5) (l3 A v4) (l3 A H3) (l3 A H4) p q h3 h4 2 1 (11 / 5 * r) x y t4 t5 HD ltac:(rewrite b50; exact HA) R2 SH SV A3 A4 PQ ltac:(lra) K1 ltac:(lra) RR PE QE E I) as (FT4 & FT5 & (BT4 & BT5) & RS).
  unfold sp2_error in RS. rewrite seps_uu in RS.
  assert (TP : norm (vsub (rotate h3 (bval t4) (rotate h4 (bval t5) p)) (rotate h3 (bval t4) (rotate h4 (bval t5) h5))) <= 14 * uu) by (rewrite PropMove.rotate_sub by exact W3; rewrite PropMove.rotate_sub by exact W4; exact HE).
  split; [exact FT4|]. split; [exact FT5|]. split; [lra|]. split; [lra|].
  assert (EQ : vsub (rotate h3 (bval t4) (rotate h4 (bval t5) h5)) u4 = vadd (vsub (rotate h3 (bval t4) (rotate h4 (bval t5) h5)) (rotate h3 (bval t4) (rotate h4 (bval t5) p))) (vadd (vsub (rotate h3 (bval t4) (rotate h4 (bval t5) p)) q) (vsub q u4))).
  { generalize (rotate h3 (bval t4) (rotate h4 (bval t5) h5)) (rotate h3 (bval t4) (rotate h4 (bval t5) p)) q u4. intros. unfold vsub, vadd. cbn [vx vy vz]. f_equal; ring. }
  rewrite EQ. eapply Rle_trans; [apply norm_triangle|]. pose proof (norm_triangle (vsub (rotate h3 (bval t4) (rotate h4 (bval t5) p)) q) (vsub q u4)) as TR.
  rewrite (norm_vsub_sym (rotate h3 (bval t4) (rotate h4 (bval t5) h5))).
  assert (BB : bpow radix2 (-28) + bpow radix2 (-37) * (1 * 1) = 33619968 * uu) by (rewrite UV; cbn; lra). rewrite BB in RS.
  replace (2 * (11 / 5 * r) * (33619968 * uu)) with (147927859.2 * (uu * r)) in RS by lra. assert (UR : uu <= uu * r) by (rewrite <- (Rmult_1_r uu) at 1; apply Rmult_le_compat_l; lra). lra.
Qed.
(** the two pairs bend the wrist to opposite sides *)
Lemma wrist_side l sg : g_subproblem2 A (l3 A H5) (l3 A v4) (l3 A H3) (l3 A H4) = Ok l -> sg = 1 \/ sg = -1 -> exists t4 t5 : b64, In (t4, t5) l /\ 0 < sg * dot (rotate h4 (bval t5) h5) (cross h3 h4).
Proof.
  intros E SG. pose proof uu_pos as UP. pose proof uu_val' as UV. pose proof v4_ok as VO. pose proof (proj2 (axis_vc L bdot H5 h5 S5)) as HO.
  destruct (vc1_stored 5735 _ _ ltac:(lra) VO) as [SV TV]. destruct (vc1_stored 14 _ _ ltac:(lra) HO) as [SH TH].
  destruct gap as (G0 & G1 & G2 & G3). pose proof (axis_l _ _ S3) as A3. pose proof (axis_l _ _ S4) as A4. destruct wrist_data as (PQ & PE & QE & RR).
  assert (K1 : 1 <= 1 * (1 - dot h3 h4 * dot h3 h4)) by (rewrite P34; lra). assert (R2 : bpow radix2 (-150) <= 2 <= bpow radix2 150) by (apply (rg2 150); lia). assert (B34 : bpow radix2 34 = 17179869184) by (cbn; lra).
  destruct (PropSub2.C107_two L bdot _ _ _ _ _ _ _ _ 2 1 (9 / 20 / r) HD R2 SH SV A3 A4 ltac:(lra) K1 ltac:(lra) G0 G1 G2 G3) as [X | (x & y & X)]; [rewrite X in E; discriminate E|].
  assert (EL : l = [x; y]) by congruence. subst l.
  destruct (PropSub2.C107_sides L bdot (l3 A H5) (l3 A v4) (l3 A H3) (l3 A H4) _ _ h3 h4 2 1 (11 / 5 * r) (9 / 20 / r) x y sg HD ltac:(rewrite b50; exact HA) R2 SH SV A3 A4 PQ ltac:(lra) K1 ltac:(lra) RR PE QE G0 G1 G2 G3 E SG) as (t4 & t5 & I & S).
  exists t4, t5. split; [exact I|]. rewrite seps_uu in S. assert (N1 : norm (cross h3 h4) = 1). { unfold norm. rewrite lagrange, P34. pose proof W3 as U3. pose proof W4 as U4. unfold unit3, norm2 in *. rewrite U3, U4. replace (1 * 1 - 0 * 0) with 1 by ring. apply sqrt_1. }
  rewrite N1 in S. destruct HO as (_ & HE & _). rewrite Rmult_1_r in HE. pose proof (near_dot_l (cross h3 h4) (rotate h4 (bval t5) (vval H5)) (rotate h4 (bval t5) h5)) as D. rewrite N1, PropMove.rotate_sub, Rmult_1_l in D by exact W4.
  assert (I1 : 1 / 1024 <= / r) by (replace (1 / 1024) with (/ 1024) by field; apply Rinv_le_contravar; lra). replace (94 / 100 * (9 / 20 / r * 2)) with (846 / 1000 * / r) in S by (field; lra).
  assert (B : 134217728 * uu + 2 * (11 / 5 * r) * (bpow radix2 (-29) + bpow radix2 (-38) * (1 * 1)) + bpow radix2 (-41) * (2 * 1) <= 1 / 10000).
  { assert (BB : bpow radix2 (-29) + bpow radix2 (-38) * (1 * 1) <= 1 / 500000000) by (cbn; lra). assert (2 * (11 / 5 * r) * (bpow radix2 (-29) + bpow radix2 (-38) * (1 * 1)) <= 2 * (11 / 5 * 1024) * (1 / 500000000)) by (apply Rmult_le_compat; try lra; pose proof (bpow_ge_0 radix2 (-29)); pose proof (bpow_ge_0 radix2 (-38)); lra).
    assert (bpow radix2 (-41) * (2 * 1) <= 1 / 1000000) by (cbn; lra). rewrite UV. lra. }
  apply Rabs_le_inv in D. rewrite UV in *. destruct SG as [-> | ->]; lra.
Qed.
Lemma wrist_dir (z : gnormalizer A) l (t4 t5 x4 x5 : b64) : g_subproblem2 A (l3 A H5) (l3 A v4) (l3 A H3) (l3 A H4) = Ok l -> In (t4, t5) l ->
  g_normalize A b_rem z 3 t4 = Ok (Some x4) -> g_normalize A b_rem z 4 t5 = Ok (Some x5) -> bfin x4 -> bfin x5 -> Rabs (bval x4) <= 1024 -> Rabs (bval x5) <= 1024 ->
  norm (vsub (rotate h3 (bval x4) (rotate h4 (bval x5) h5)) u4) <= 416400000 * uu * r.
Proof.
  intros E I N4 N5 F4 F5 B4 B5. pose proof uu_pos as UP. destruct (wrist_raw l t4 t5 E I) as (FT4 & FT5 & BT4 & BT5 & RS).
  pose proof (joint_turn L bdot z 3 t4 x4 h3 W3 N4 F4 B4 ltac:(lra)) as J4. pose proof (joint_turn L bdot z 4 t5 x5 h4 W4 N5 F5 B5 ltac:(lra) h5) as J5. rewrite (norm_unit _ W5) in J5.
  specialize (J4 (rotate h4 (bval x5) h5)). rewrite (PropSub2.turn_norm h4 _ _ W4), (norm_unit _ W5) in J4.
  assert (T5 : norm (vsub (rotate h3 (bval t4) (rotate h4 (bval x5) h5)) (rotate h3 (bval t4) (rotate h4 (bval t5) h5))) <= 4200 * uu * 1) by (rewrite PropMove.rotate_sub by exact W3; exact J5).
  assert (EQ : vsub (rotate h3 (bval x4) (rotate h4 (bval x5) h5)) u4 = vadd (vadd (vsub (rotate h3 (bval x4) (rotate h4 (bval x5) h5)) (rotate h3 (bval t4) (rotate h4 (bval x5) h5))) (vsub (rotate h3 (bval t4) (rotate h4 (bval x5) h5)) (rotate h3 (bval t4) (rotate h4 (bval t5) h5)))) (vsub (rotate h3 (bval t4) (rotate h4 (bval t5) h5)) u4)).
  { generalize (rotate h3 (bval x4) (rotate h4 (bval x5) h5)) (rotate h3 (bval t4) (rotate h4 (bval x5) h5)) (rotate h3 (bval t4) (rotate h4 (bval t5) h5)) u4. intros. unfold vsub, vadd. cbn [vx vy vz]. f_equal; ring. }
  rewrite EQ. eapply Rle_trans; [apply norm_triangle|]. eapply Rle_trans; [apply Rplus_le_compat_r; apply norm_triangle|].
  assert (UR : uu <= uu * r) by (rewrite <- (Rmult_1_r uu) at 1; apply Rmult_le_compat_l; lra). lra.
Qed.

Section Last.
Context (x4 x5 : b64) (F4 : bfin x4) (F5 : bfin x5) (D45 : norm (vsub (rotate h3 (bval x4) (rotate h4 (bval x5) h5)) u4) <= 416400000 * uu * r).
Definition N5 : mat3 := mmul N (mmul (rot h3 (bval x4)) (rot h4 (bval x5))).
Definition u6 : vec3 := mvec (mT N5) (mvec Q h4).
Lemma SN5 : is_SO3 N5.
Proof. unfold N5. apply SO3_mmul; [apply SN|]. apply SO3_mmul; apply rot_SO3; [apply W3|apply W4]. Qed.
Lemma N5_vec v : mvec N5 v = mvec N (rotate h3 (bval x4) (rotate h4 (bval x5) v)).
Proof. unfold N5. rewrite !mvec_mmul, !rot_rotate; [reflexivity|apply W4|apply W3]. Qed.
Lemma v6_ok : vc 1 8067 (g_mv A (g_mm A (v3cols (g_mm A R03 (g_mm A (g_rot A H3 x4) (g_rot A H4 x5)))) R06) H4) u6.
Proof.
  assert (M1 : mc (1143 + 1143 + 23) (g_mm A (g_rot A H3 x4) (g_rot A H4 x5)) (mmul (rot h3 (bval x4)) (rot h4 (bval x5)))) by (apply mc_mul; try assumption; try lra; apply rot_mc; assumption).
  assert (M2 : mc (3475 + (1143 + 1143 + 23) + 23) (g_mm A R03 (g_mm A (g_rot A H3 x4) (g_rot A H4 x5))) N5) by (apply mc_mul; try assumption; lra).
  assert (M3 : mc (3475 + (1143 + 1143 + 23) + 23 + 2200 + 23) (g_mm A (v3cols (g_mm A R03 (g_mm A (g_rot A H3 x4) (g_rot A H4 x5)))) R06) (mmul (mT N5) Q)) by (apply mc_mul; try assumption; try lra; apply mc_T; assumption).
  assert (V : vc 1 (3475 + (1143 + 1143 + 23) + 23 + 2200 + 23 + 14 + 23) (g_mv A (g_mm A (v3cols (g_mm A R03 (g_mm A (g_rot A H3 x4) (g_rot A H4 x5)))) R06) H4) (mvec (mmul (mT N5) Q) h4)) by (apply vc_mv; try assumption; try lra; [apply rg_1; lia|apply axis_vc; exact S4]).
  rewrite mvec_mmul in V. eapply vc_weak; [lra| |exact V]. lra.
Qed.
Lemma u6_unit : norm u6 = 1.
Proof. unfold u6. rewrite !norm_SO3; [apply norm_unit; exact W4|apply SQ|apply SO3_T; apply SN5]. Qed.
(** the direction of the last axis *)
Lemma last_axis : norm (vsub (mvec N5 h5) (mvec Q h5)) <= 416400000 * uu * r.
Proof.
  rewrite N5_vec. assert (E : mvec Q h5 = mvec N u4) by (unfold u4; rewrite SO3_vec_T by apply SN; reflexivity). rewrite E.
  replace (vsub (mvec N (rotate h3 (bval x4) (rotate h4 (bval x5) h5))) (mvec N u4)) with (mvec N (vsub (rotate h3 (bval x4) (rotate h4 (bval x5) h5)) u4)) by apply mvec_vsub.
  rewrite norm_SO3 by apply SN. exact D45.
Qed.
Lemma u6_height : Rabs (dot u6 h5) <= 416400000 * uu * r.
Proof.
  unfold u6. rewrite dot_mvec_l, mT_mT. pose proof (near_dot (mvec Q h4) (mvec N5 h5) (mvec Q h5)) as D. rewrite SO3_dot in D by apply SQ. rewrite P45, (norm_SO3 Q h4 SQ), (norm_unit _ W4), Rmult_1_l in D.
  replace (dot (mvec Q h4) (mvec N5 h5)) with (dot (mvec Q h4) (mvec N5 h5) - 0) by ring. eapply Rle_trans; [exact D|exact last_axis].
Qed.
(** the last axis turned towards a vector that is near the right one *)
Context (v6 : v3 b64) (V6 : vc 1 8067 v6 u6).
Lemma last_raw (t6 : b64) : g_subproblem1 A (l3 A H4) (l3 A v6) (l3 A H5) = Ok t6 ->
  bfin t6 /\ Rabs (bval t6) <= 16 / 5 /\ norm (vsub (rotate h5 (bval t6) h4) u6) <= 572295000 * uu * r.
Proof.
  intros E. pose proof uu_pos as UP. pose proof uu_val' as UV. pose proof V6 as VO. pose proof (proj2 (axis_vc L bdot H4 h4 S4)) as HO. pose proof u6_height as UH. pose proof W4 as U4. pose proof W5 as U5.
  destruct (vc1_stored 8067 _ _ ltac:(lra) VO) as [SV TV]. destruct (vc1_stored 14 _ _ ltac:(lra) HO) as [SH TH].
  destruct VO as (_ & VE & _). destruct HO as (_ & HE & _). rewrite Rmult_1_r in VE, HE. set (q := vval v6) in *. set (p := vval H4) in *. set (d := 416400000 * uu * r) in *.
  assert (D0 : 0 <= d <= 1 / 20000). { unfold d. split; [apply Rmult_le_pos; lra|]. apply Rle_trans with (416400000 * uu * 1024); [apply Rmult_le_compat_l; lra|rewrite UV; lra]. }
  pose proof (perp_sq h5 h4 U5) as PS4. rewrite P45 in PS4. replace (dot h4 h4) with 1 in PS4 by (symmetry; apply U4). pose proof (norm_nonneg (perp h5 h4)) as NN4. assert (E4 : norm (perp h5 h4) = 1) by nra.
  pose proof (perp_sq h5 u6 U5) as PS6. rewrite <- norm_sq, u6_unit in PS6. pose proof (norm_nonneg (perp h5 u6)) as NN6.
  assert (HH : dot u6 h5 * dot u6 h5 <= 1 / 20000 * d). { rewrite <- (Rabs_right (dot u6 h5 * dot u6 h5)) by (apply Rle_ge, Rle_0_sqr). rewrite Rabs_mult. apply Rmult_le_compat; try apply Rabs_pos; lra. }
  assert (E6 : 1 - 1 / 20000 * d <= norm (perp h5 u6) <= 1). { pose proof (Rle_0_sqr (dot u6 h5)) as SQ0. unfold Rsqr in SQ0. split; nra. }
  pose proof (perp_near h5 p h4 U5) as PP. pose proof (perp_near h5 q u6 U5) as PQ. apply Rabs_le_inv in PP. apply Rabs_le_inv in PQ. rewrite E4 in PP.
  destruct (PropSub4.axis3_vtr _ _ S5) as [_ TK].
  destruct (sub1_turn L bdot 2 (11 / 5) (l3 A H4) (l3 A v6) (l3 A H5) p q h5 t6 HD HA (rg2 380 ltac:(lia)) U5 TK TH TV ltac:(lra) ltac:(rewrite UV in *; lra) ltac:(rewrite UV in *; lra) E) as (FT6 & BT6 & RS).
  split; [exact FT6|]. split; [exact BT6|].
  assert (RN : Rabs (norm (perp h5 p) - norm (perp h5 q)) <= 1 / 20000 * d + 8081 * uu) by (apply Rabs_le; lra).
  assert (RH : Rabs (dot p h5 - dot q h5) <= d + 8081 * uu).
  { pose proof (near_dot_l h5 p h4) as D1. pose proof (near_dot_l h5 q u6) as D2. rewrite P45 in D1. rewrite (norm_unit _ U5), Rmult_1_l in D1, D2. apply Rabs_le_inv in D1. apply Rabs_le_inv in D2. apply Rabs_le_inv in UH. apply Rabs_le. lra. }
  assert (TB : norm (vsub (rotate h5 (bval t6) p) (rotate h5 (bval t6) h4)) <= 14 * uu) by (rewrite PropMove.rotate_sub by exact U5; exact HE).
  assert (EQ : vsub (rotate h5 (bval t6) h4) u6 = vadd (vsub (rotate h5 (bval t6) h4) (rotate h5 (bval t6) p)) (vadd (vsub (rotate h5 (bval t6) p) q) (vsub q u6))).
  { generalize (rotate h5 (bval t6) h4) (rotate h5 (bval t6) p) q u6. intros. unfold vsub, vadd. cbn [vx vy vz]. f_equal; ring. }
  rewrite EQ. eapply Rle_trans; [apply norm_triangle|]. eapply Rle_trans; [apply Rplus_le_compat_l; apply norm_triangle|]. rewrite (norm_vsub_sym (rotate h5 (bval t6) h4)).
  rewrite seps_uu in RS. assert (UR : uu <= uu * r) by (rewrite <- (Rmult_1_r uu) at 1; apply Rmult_le_compat_l; lra). unfold d in *. lra.
Qed.
Lemma last_turn (z : gnormalizer A) (t6 x6 : b64) : g_subproblem1 A (l3 A H4) (l3 A v6) (l3 A H5) = Ok t6 -> g_normalize A b_rem z 5 t6 = Ok (Some x6) -> bfin x6 -> Rabs (bval x6) <= 1024 ->
  norm (vsub (rotate h5 (bval x6) h4) u6) <= 572300000 * uu * r.
Proof.
  intros E N6 F6 B6. pose proof uu_pos as UP. pose proof W4 as U4. pose proof W5 as U5. destruct (last_raw t6 E) as (FT6 & BT6 & RS).
  pose proof (joint_turn L bdot z 5 t6 x6 h5 U5 N6 F6 B6 ltac:(lra) h4) as JT. rewrite (norm_unit _ U4) in JT.
  assert (EQ : vsub (rotate h5 (bval x6) h4) u6 = vadd (vsub (rotate h5 (bval x6) h4) (rotate h5 (bval t6) h4)) (vsub (rotate h5 (bval t6) h4) u6)).
  { generalize (rotate h5 (bval x6) h4) (rotate h5 (bval t6) h4) u6. intros. unfold vsub, vadd. cbn [vx vy vz]. f_equal; ring. }
  rewrite EQ. eapply Rle_trans; [apply norm_triangle|]. assert (UR : uu <= uu * r) by (rewrite <- (Rmult_1_r uu) at 1; apply Rmult_le_compat_l; lra). lra.
Qed.
Lemma wrist_turn (z : gnormalizer A) (t6 x6 : b64) : g_subproblem1 A (l3 A H4) (l3 A v6) (l3 A H5) = Ok t6 -> g_normalize A b_rem z 5 t6 = Ok (Some x6) -> bfin x6 -> Rabs (bval x6) <= 1024 ->
  forall w, norm (vsub (mvec N (rotate h3 (bval x4) (rotate h4 (bval x5) (rotate h5 (bval x6) w)))) (mvec Q w)) <= 1220000000 * uu * r * norm w.
Proof.
  intros E N6 F6 B6 w. pose proof (last_turn z t6 x6 E N6 F6 B6) as LT. pose proof last_axis as LA. pose proof uu_pos as UP.
  assert (SR : is_SO3 (mmul N5 (rot h5 (bval x6)))) by (apply SO3_mmul; [apply SN5|apply rot_SO3; exact W5]).
  assert (X4 : norm (vsub (mvec (mmul N5 (rot h5 (bval x6))) h4) (mvec Q h4)) <= 572300000 * uu * r).
  { rewrite mvec_mmul, rot_rotate by exact W5. assert (EQ : mvec Q h4 = mvec N5 u6) by (unfold u6; rewrite SO3_vec_T by apply SN5; reflexivity). rewrite EQ, <- mvec_vsub, norm_SO3 by apply SN5. exact LT. }
  assert (X5 : norm (vsub (mvec (mmul N5 (rot h5 (bval x6))) h5) (mvec Q h5)) <= 416400000 * uu * r).
  { rewrite mvec_mmul, rot_rotate, (turn_axis h5) by (try exact W5; apply axis_self; exact W5). exact LA. }
  pose proof (FactsIkGeo.rotations_near _ _ h4 h5 _ _ (1220000000 * uu * r) SR SQ W4 W5 P45 X4 X5) as RN.
  assert (UR : 0 <= uu * r) by (apply Rmult_le_pos; lra). specialize (RN ltac:(rewrite Rmult_assoc; lra)).
  assert (HQ : 572300000 * uu * r * (572300000 * uu * r) + 416400000 * uu * r * (416400000 * uu * r) + (572300000 * uu * r + 416400000 * uu * r) * (572300000 * uu * r + 416400000 * uu * r) <= 1220000000 * uu * r * (1220000000 * uu * r)).
  { rewrite !(Rmult_assoc _ uu r). set (y := uu * r) in *. assert (0 <= y * y) by (apply Rmult_le_pos; exact UR). lra. }
  specialize (RN HQ w). rewrite mvec_mmul, rot_rotate, N5_vec in RN by exact W5. exact RN.
Qed.
End Last.
End Wrist.
