(** The angle between two vectors as subproblem0 and subproblem1 compute it in binary64. *)
From Coq Require Import Reals ZArith List Bool Lra Lia Psatz.
From Flocq Require Import Core.Core IEEE754.BinarySingleNaN.
From Verif Require Import LinAlg RealAux Py FactsReal FactsLinAlg ModelRot SpecRot FactsRot FactsRot2 FactsNorm SpecSub FactsSub ModelRobot ModelFloat SpecRound FactsB64 FactsExact PropB64 PropNorm FactsTrack SpecArc.
From Verif Require PropPi.
Import ListNotations.
Open Scope R_scope.

(* ---- real numbers ---- *)
Lemma abs_sub_le a b c d : Rabs (a - b) <= c -> Rabs (b - d) <= c -> Rabs (a - d) <= 2 * c.
Proof. intros H1 H2. replace (a - d) with ((a - b) + (b - d)) by ring. eapply Rle_trans; [apply Rabs_triang|]. lra. Qed.
Lemma unit_pair_close x y x' y' e : 0 <= x -> 0 <= y -> x * x + y * y = 4 -> 0 <= e <= 1 / 100 -> Rabs (x' - x) <= e -> Rabs (y' - y) <= e ->
  let r := sqrt (x' * x' + y' * y') in
  0 < r /\ Rabs (x' / r - x / 2) <= 13 / 10 * e /\ Rabs (y' / r - y / 2) <= 13 / 10 * e.
Proof.
  intros X0 Y0 E He Ex Ey r. apply Rabs_le_inv in Ex as Ex'. apply Rabs_le_inv in Ey as Ey'.
  assert (XB : x <= 2) by nra. assert (YB : y <= 2) by nra.
  assert (XY : x + y <= 2829 / 1000).
  { apply Rnot_lt_le. intros N. assert (2829 / 1000 * (2829 / 1000) < (x + y) * (x + y)) by (apply Rmult_le_0_lt_compat; lra). pose proof (Rle_0_sqr (x - y)). unfold Rsqr in *. lra. }
  set (a := x' - x) in *. set (b := y' - y) in *. assert (Xa : x' = x + a) by (unfold a; ring). assert (Yb : y' = y + b) by (unfold b; ring).
  assert (RR : r * r = 4 + 2 * (x * a + y * b) + (a * a + b * b)).
  { unfold r. rewrite sqrt_sqrt; [rewrite Xa, Yb; lra|]. pose proof (Rle_0_sqr x'); pose proof (Rle_0_sqr y'); unfold Rsqr in *; lra. }
  assert (R0 : 0 <= r) by apply sqrt_pos.
  assert (U : x * a + y * b <= (x + y) * e /\ - ((x + y) * e) <= x * a + y * b).
  { assert (x * a <= x * e /\ - (x * e) <= x * a) by (split; [|replace (- (x * e)) with (x * - e) by ring]; apply Rmult_le_compat_l; lra).
    assert (y * b <= y * e /\ - (y * e) <= y * b) by (split; [|replace (- (y * e)) with (y * - e) by ring]; apply Rmult_le_compat_l; lra). lra. }
  assert (V : (x + y) * e <= 2829 / 1000 * e) by (apply Rmult_le_compat_r; lra).
  assert (W : 0 <= a * a + b * b <= 2 * (e * e)).
  { split; [pose proof (Rle_0_sqr a); pose proof (Rle_0_sqr b); unfold Rsqr in *; lra|].
    assert (a * a <= e * e) by (apply Rsqr_le_abs_1 with (x := a) (y := e); rewrite (Rabs_right e) by lra; exact Ex).
    assert (b * b <= e * e) by (apply Rsqr_le_abs_1 with (x := b) (y := e); rewrite (Rabs_right e) by lra; exact Ey). lra. }
  assert (EE : e * e <= 1 / 100 * e) by (apply Rmult_le_compat_r; lra).
  assert (RL : 2 - 1430 / 1000 * e <= r).
  { apply Rnot_lt_le. intros N. assert (r * r < (2 - 1430 / 1000 * e) * (2 - 1430 / 1000 * e)) by (apply Rmult_le_0_lt_compat; lra). lra. }
  assert (RU : r <= 2 + 1430 / 1000 * e).
  { apply Rnot_lt_le. intros N. assert ((2 + 1430 / 1000 * e) * (2 + 1430 / 1000 * e) < r * r) by (apply Rmult_le_0_lt_compat; lra). lra. }
  assert (RP : 19 / 10 <= r) by lra.
  assert (G : forall z z', 0 <= z <= 2 -> Rabs (z' - z) <= e -> Rabs (z' / r - z / 2) <= 13 / 10 * e).
  { intros z z' Hz Hzz. replace (z' / r - z / 2) with (((z' - z) + z / 2 * (2 - r)) / r) by (field; lra). unfold Rdiv at 1. rewrite Rabs_mult, Rabs_inv, (Rabs_right r) by lra.
    apply Rmult_le_reg_r with r; [lra|]. rewrite Rmult_assoc, Rinv_l, Rmult_1_r by lra.
    assert (Rabs (z / 2 * (2 - r)) <= 1 * (1430 / 1000 * e)).
    { rewrite Rabs_mult. apply Rmult_le_compat; auto using Rabs_pos; [rewrite Rabs_right; lra | apply Rabs_le; lra]. }
    eapply Rle_trans; [apply Rabs_triang|]. assert (13 / 10 * e * (19 / 10) <= 13 / 10 * e * r) by (apply Rmult_le_compat_l; lra). lra. }
  split; [lra|]. split; apply G; auto; lra.
Qed.
Lemma cos_lip a b : Rabs (cos a - cos b) <= Rabs (a - b).
Proof.
  destruct (Req_dec a b) as [-> | N]; [replace (cos b - cos b) with 0 by ring; replace (b - b) with 0 by ring; lra|].
  destruct (MVT_abs cos (fun x => - sin x) b a) as (c & E & _); [intros c _; apply derivable_pt_lim_cos|].
  rewrite E. rewrite <- (Rmult_1_l (Rabs (a - b))) at 2. apply Rmult_le_compat_r; [apply Rabs_pos|]. rewrite Rabs_Ropp. apply Rabs_le. pose proof (SIN_bound c). lra.
Qed.
Lemma sin_lip a b : Rabs (sin a - sin b) <= Rabs (a - b).
Proof.
  rewrite !sin_cos. replace (- cos (PI / 2 + a) - - cos (PI / 2 + b)) with (- (cos (PI / 2 + a) - cos (PI / 2 + b))) by ring. rewrite Rabs_Ropp.
  eapply Rle_trans; [apply cos_lip|]. right. f_equal. ring.
Qed.
(** Turning a by an angle whose cosine and sine are nearly those of the angle to b. *)
Lemma turn_close h a b t e : unit3 h -> unit3 a -> unit3 b -> dot h a = 0 -> dot h b = 0 ->
  Rabs (cos t - dot a b) <= e -> Rabs (sin t - dot h (cross a b)) <= e -> norm (vsub (rotate h t a) b) <= 2 * e.
Proof.
  intros Uh Ua Ub Ha Hb C S. rewrite <- rot_rotate, rot_plane by assumption. rewrite (plane_frame h a b Uh Ha Hb Ua) at 1.
  set (c := cos t) in *. set (s := sin t) in *. set (x := dot a b) in *. set (y := dot h (cross a b)) in *.
  replace (vsub _ _) with (vadd (vscale (c - x) a) (vscale (s - y) (cross h a))) by (generalize (cross h a); intros; la_ring).
  eapply Rle_trans; [apply norm_triangle|]. rewrite !norm_vscale, (norm_unit a Ua).
  assert (NC : norm (cross h a) = 1).
  { apply norm_unit. unfold unit3 in *. pose proof (lagrange h a) as Lg. unfold norm2 in Lg. rewrite Ha, Uh, Ua in Lg. lra. }
  rewrite NC. lra.
Qed.

(* ---- binary64 ---- *)
Lemma cross_le a b : norm (cross a b) <= norm a * norm b.
Proof.
  pose proof (lagrange a b) as Lg. pose proof (norm_sq (cross a b)) as S. pose proof (norm_sq a) as SA. pose proof (norm_sq b) as SB.
  unfold norm2 in *. pose proof (norm_nonneg a). pose proof (norm_nonneg b). pose proof (norm_nonneg (cross a b)). assert (0 <= norm a * norm b) by (apply Rmult_le_pos; assumption).
  apply Rnot_lt_le. intros N. assert (norm a * norm b * (norm a * norm b) < norm (cross a b) * norm (cross a b)) by (apply Rmult_le_0_lt_compat; lra).
  pose proof (Rle_0_sqr (dot a b)) as Q. unfold Rsqr in Q. rewrite S, Lg, <- SA, <- SB in *. lra.
Qed.
Lemma vtr_cross L dt c c' m m' l l' v w : 0 <= c -> 0 <= c' -> cb (1001 / 1000 * (c + c') + 2) -> rg 390 m -> rg 390 m' -> vtr c m l v -> vtr c' m' l' w ->
  vtr (21 / 10 * (c + c') + 8) (m * m') (l_cross (b64_arith L dt) l l') (cross v w).
Proof.
  intros C C' CB M M' V W. pose proof (rg_mul _ _ _ _ M M') as MM. pose proof (rg_pos _ _ MM) as MP.
  apply (vtr_weak (((1001 / 1000 * (c + c') + 2 + (1001 / 1000 * (c' + c) + 2)) / 2 + 2) * 2)); [lra | lra|].
  destruct V as (a & b & d & -> & A & B & D & N), W as (x & y & z & -> & X & Y & Z & N').
  apply vtr_mag with (m := 2 * (m * m')); [lra | lra | eapply Rle_trans; [apply cross_le|]; apply Rmult_le_compat; auto using norm_nonneg|].
  assert (R2 : rg 900 (2 * (m * m'))) by (apply (rg_weak 783); [lia|]; apply (rg_scale 780); [exact MM | lra]).
  assert (R1 : rg 900 (m * m')) by (apply (rg_weak 780); [lia | exact MM]).
  assert (C1 : cb c) by (unfold cb in *; lra). assert (C1' : cb c') by (unfold cb in *; lra).
  assert (T : forall s s' t t', tr c m s s' -> tr c' m' t t' -> tr (1001 / 1000 * (c + c') + 2) (m * m') (b_mul s t) (s' * t')).
  { intros s s' t t' Hs Ht. apply tr_mul; auto. unfold cb in *; lra. }
  unfold l_cross. cbn [nsub nmul b64_arith].
  replace (1001 / 1000 * (c' + c) + 2) with (1001 / 1000 * (c + c') + 2) by ring.
  apply vtr_entries; cbn [cross vx vy vz]; try (apply tr_sub; auto; fail).
  eapply Rle_trans; [apply cross_le|]. assert (norm v * norm w <= m * m') by (apply Rmult_le_compat; auto using norm_nonneg). lra.
Qed.

Lemma one_two : bfin (b_lit 2 1) /\ bval (b_lit 2 1) = 2. Proof. split; [reflexivity | vm_compute; lra]. Qed.
Lemma zero_b L dt : bfin (nzero (b64_arith L dt)) /\ bval (nzero (b64_arith L dt)) = 0. Proof. split; [reflexivity | vm_compute; lra]. Qed.
Section Angle.
Context (L : libm) (bdot : list b64 -> list b64 -> b64) (HD : In bdot b_dots) (HL : libm_arc_ok L (8 * uu)).
Local Notation A := (b64_arith L bdot).

Lemma sub0_acc c P Q K a b h t : 1 <= c <= 300000000000 -> vtr c 1 P a -> vtr c 1 Q b -> vtr c 1 K h -> unit3 a -> unit3 b -> unit3 h -> dot h a = 0 -> dot h b = 0 ->
  g_subproblem0 A P Q K = Ok t -> bfin t /\ Rabs (bval t) <= 16 / 5 /\ norm (vsub (rotate h (bval t) a) b) <= 3000 * c * uu.
Proof.
  intros HC VP VQ VK Ua Ub Uh Ha Hb. pose proof uu_pos as U. pose proof uu_val' as UV. assert (R1 : rg 390 1) by (apply rg_1; lia).
  assert (CU : c * uu <= 34 / 1000000) by (rewrite UV; lra).
  unfold g_subproblem0. destruct (assert_ _) as [u|e]; cbn [bind]; [|discriminate].
  pose proof (norm_unit a Ua) as Na. pose proof (norm_unit b Ub) as Nb.
  destruct (vtr_dir L bdot c 1 1 P a HD) as [DP _]; try lra; try assumption; [unfold cb; lra|].
  destruct (vtr_dir L bdot c 1 1 Q b HD) as [DQ _]; try lra; try assumption; [unfold cb; lra|].
  rewrite (dir_of_unit a Ua) in DP. rewrite (dir_of_unit b Ub) in DQ.
  set (ep := l_div A P (l_norm A P)) in *. set (eq := l_div A Q (l_norm A Q)) in *.
  pose proof (vtr_sub L bdot (4 * (1 * (c + 8))) (4 * (1 * (c + 8))) 1 _ _ _ _ ltac:(unfold cb; lra) ltac:(unfold cb; lra) R1 DP DQ) as VS.
  pose proof (vtr_add L bdot (4 * (1 * (c + 8))) (4 * (1 * (c + 8))) 1 _ _ _ _ ltac:(unfold cb; lra) ltac:(unfold cb; lra) R1 DP DQ) as VA.
  assert (R2 : rg 390 (2 * 1)). { split; [apply Rle_trans with (bpow radix2 0); [apply bpow_le; lia | cbn; lra] | rewrite Rmult_1_r; change 2 with (bpow radix2 1); apply bpow_le; lia]. }
  destruct (tr_norm bdot ((4 * (1 * (c + 8)) + 4 * (1 * (c + 8))) / 2 + 2) (2 * 1) _ _ HD ltac:(unfold cb; lra) R2 VS) as [TS PS]. destruct (tr_norm bdot ((4 * (1 * (c + 8)) + 4 * (1 * (c + 8))) / 2 + 2) (2 * 1) _ _ HD ltac:(unfold cb; lra) R2 VA) as [TA PA].
  change (b_sqrt (bdot (l_sub A ep eq) (l_sub A ep eq))) with (l_norm A (l_sub A ep eq)) in *. change (b_sqrt (bdot (l_add A ep eq) (l_add A ep eq))) with (l_norm A (l_add A ep eq)) in *.
  set (n1 := l_norm A (l_sub A ep eq)) in *. set (n2 := l_norm A (l_add A ep eq)) in *.
  set (y := norm (vsub a b)) in *. set (x := norm (vadd a b)) in *.
  assert (Hy : y * y = 2 - 2 * dot a b) by (unfold y; rewrite norm_sq, dot_vsub_l, !dot_vsub_r, Ua, Ub, (dot_comm b a); ring).
  assert (Hx : x * x = 2 + 2 * dot a b) by (unfold x; rewrite norm_sq, dot_vadd_l, !dot_vadd_r, Ua, Ub, (dot_comm b a); ring).
  assert (y0 : 0 <= y) by apply norm_nonneg. assert (x0 : 0 <= x) by apply norm_nonneg.
  set (del := 250 * c * uu). assert (Hdel : 0 <= del <= 1 / 100) by (unfold del; split; [apply Rmult_le_pos; lra | lra]).
  assert (E1 : Rabs (bval n1 - y) <= del).
  { destruct TS as (_ & E & _). eapply Rle_trans; [exact E|]. unfold del. rewrite Rmult_1_r. assert (uu <= c * uu) by (rewrite <- (Rmult_1_l uu) at 1; apply Rmult_le_compat_r; lra). lra. }
  assert (E2 : Rabs (bval n2 - x) <= del).
  { destruct TA as (_ & E & _). eapply Rle_trans; [exact E|]. unfold del. rewrite Rmult_1_r. assert (uu <= c * uu) by (rewrite <- (Rmult_1_l uu) at 1; apply Rmult_le_compat_r; lra). lra. }
  destruct (unit_pair_close x y (bval n2) (bval n1) del x0 y0 ltac:(lra) Hdel E2 E1) as (RP & CX & CY). cbv zeta in RP, CX, CY.
  pose proof (atan2_cos (bval n1) (bval n2)) as AC. pose proof (atan2_sin (bval n1) (bval n2)) as AS.
  set (r := sqrt (bval n2 * bval n2 + bval n1 * bval n1)) in *. set (al := atan2 (bval n1) (bval n2)) in *.
  assert (CA : bval n2 / r = cos al) by (rewrite <- AC; field; lra). assert (SA : bval n1 / r = sin al) by (rewrite <- AS; field; lra). rewrite CA in CX. rewrite SA in CY.
  (* the library functions *)
  change (natan2 A n1 n2) with (m_atan2 L n1 n2). change (nmul A (nlit A 2 1)) with (b_mul (b_lit 2 1)).
  assert (SUM : 0 < bval n1 + bval n2).
  { destruct (Rle_lt_dec (bval n1 + bval n2) 0) as [Z | Z]; [|lra]. assert (N1 : bval n1 = 0) by lra. assert (N2 : bval n2 = 0) by lra.
    unfold r in RP. rewrite N1, N2, Rmult_0_l, Rplus_0_r, sqrt_0 in RP. lra. }
  destruct (proj1 HL n1 n2 (proj1 TS) (proj1 TA) PS PA SUM) as [FT ET]. fold al in ET. set (t2 := m_atan2 L n1 n2) in *.
  assert (AL : - 4 < al <= 4). { pose proof (atan2_range (bval n1) (bval n2)) as RG. fold al in RG. pose proof PI_4. lra. }
  assert (T2 : Rabs (bval t2) <= 5). { apply Rabs_le_inv in ET. apply Rabs_le. rewrite UV in ET. lra. }
  set (th := b_mul (b_lit 2 1) t2). destruct one_two as [F2 V2].
  assert (TH : bfin th /\ bval th = rnd (2 * bval t2)).
  { destruct (mul_range (b_lit 2 1) t2 F2 FT) as [F V]; [|rewrite V2 in V; split; assumption]. rewrite V2. apply in_range. rewrite Rabs_mult, (Rabs_right 2) by lra.
    apply Rle_trans with (bpow radix2 4); [cbn; lra | apply bpow_le; lia]. }
  destruct TH as [FH VH].
  assert (ETH : Rabs (bval th - 2 * al) <= 27 * uu).
  { rewrite VH. pose proof (rnd_err (2 * bval t2)) as RE. rewrite Rabs_mult, (Rabs_right 2) in RE by lra. pose proof ee_le_uu.
    assert (uu * (2 * Rabs (bval t2)) <= uu * 10) by (apply Rmult_le_compat_l; lra).
    replace (rnd (2 * bval t2) - 2 * al) with ((rnd (2 * bval t2) - 2 * bval t2) + 2 * (bval t2 - al)) by ring. eapply Rle_trans; [apply Rabs_triang|]. rewrite Rabs_mult, (Rabs_right 2) by lra. lra. }
  assert (AL2 : 0 <= al <= PI / 2).
  { pose proof (atan2_range (bval n1) (bval n2)) as RG. fold al in RG. pose proof PI_RGT_0 as PP. assert (r0 : 0 < / r) by (apply Rinv_0_lt_compat; exact RP).
    assert (C0 : 0 <= cos al) by (rewrite <- CA; apply Rmult_le_pos; lra). assert (S0 : 0 <= sin al) by (rewrite <- SA; apply Rmult_le_pos; lra).
    split; apply Rnot_lt_le; intros C; [pose proof (sin_gt_0 (- al)) as N; rewrite sin_neg in N | pose proof (cos_lt_0 al) as N]; lra. }
  assert (BTH : Rabs (bval th) <= 16 / 5) by (pose proof PropPi.pi_hi as PH; apply Rabs_le_inv in ETH; rewrite UV in ETH; apply Rabs_le; lra).
  (* cosine and sine of the angle *)
  set (C := dot a b) in *. set (S := dot h (cross a b)).
  pose proof (plane_circle h a b Uh Ha Hb Ua Ub) as PC. fold C S in PC.
  set (ep2 := 53 / 10 * del + 27 * uu).
  apply Rabs_le_inv in CX as CX'. apply Rabs_le_inv in CY as CY'. pose proof (COS_bound al) as CB1. pose proof (SIN_bound al) as SB1.
  assert (xb : x <= 2).
  { apply Rnot_lt_le. intros N. assert (2 * 2 < x * x) by (apply Rmult_le_0_lt_compat; lra). pose proof (Rle_0_sqr y). unfold Rsqr in *. lra. }
  assert (yb : y <= 2).
  { apply Rnot_lt_le. intros N. assert (2 * 2 < y * y) by (apply Rmult_le_0_lt_compat; lra). pose proof (Rle_0_sqr x). unfold Rsqr in *. lra. }
  assert (COS2 : Rabs (cos (2 * al) - C) <= 53 / 10 * del).
  { rewrite cos_2a_cos. replace (2 * cos al * cos al - 1 - C) with (2 * ((cos al + x / 2) * (cos al - x / 2))) by lra.
    rewrite !Rabs_mult, (Rabs_right 2) by lra. assert (Rabs (cos al + x / 2) <= 2) by (apply Rabs_le; lra).
    assert (Rabs (cos al + x / 2) * Rabs (cos al - x / 2) <= 2 * (13 / 10 * del)) by (apply Rmult_le_compat; auto using Rabs_pos). lra. }
  assert (SIN2 : Rabs (sin (2 * al) - x * y / 2) <= 53 / 10 * del).
  { rewrite sin_2a. replace (2 * sin al * cos al - x * y / 2) with (2 * ((sin al - y / 2) * cos al) + 2 * (y / 2 * (cos al - x / 2))) by lra.
    eapply Rle_trans; [apply Rabs_triang|]. rewrite !Rabs_mult, !(Rabs_right 2) by lra.
    assert (Rabs (sin al - y / 2) * Rabs (cos al) <= 13 / 10 * del * 1) by (apply Rmult_le_compat; auto using Rabs_pos; apply Rabs_le; lra).
    assert (Rabs (y / 2) * Rabs (cos al - x / 2) <= 1 * (13 / 10 * del)) by (apply Rmult_le_compat; auto using Rabs_pos; rewrite Rabs_right; lra). lra. }
  assert (SXY : x * y / 2 * (x * y / 2) = S * S). { replace (x * y / 2 * (x * y / 2)) with (x * x * (y * y) / 4) by field. rewrite Hx, Hy. fold C. lra. }
  assert (XY0 : 0 <= x * y / 2) by (assert (0 <= x * y) by (apply Rmult_le_pos; lra); lra).
  assert (COST : Rabs (cos (bval th) - C) <= ep2).
  { pose proof (cos_lip (bval th) (2 * al)). replace (cos (bval th) - C) with ((cos (bval th) - cos (2 * al)) + (cos (2 * al) - C)) by ring. eapply Rle_trans; [apply Rabs_triang|]. unfold ep2. lra. }
  assert (SINT : Rabs (sin (bval th) - x * y / 2) <= ep2).
  { pose proof (sin_lip (bval th) (2 * al)). replace (sin (bval th) - x * y / 2) with ((sin (bval th) - sin (2 * al)) + (sin (2 * al) - x * y / 2)) by ring. eapply Rle_trans; [apply Rabs_triang|]. unfold ep2. lra. }
  (* the sign *)
  pose proof (vtr_cross L bdot c c 1 1 P Q a b ltac:(lra) ltac:(lra) ltac:(unfold cb; lra) R1 R1 VP VQ) as VC. rewrite Rmult_1_r in VC.
  pose proof (vtr_dot bdot c (21 / 10 * (c + c) + 8) 1 1 K _ h _ HD ltac:(unfold cb; lra) ltac:(unfold cb; lra) ltac:(unfold cb; lra) R1 R1 VK VC) as TD. rewrite Rmult_1_r in TD. fold S in TD.
  change (ndot A K (l_cross A P Q)) with (bdot K (l_cross A P Q)). set (sg := bdot K (l_cross A P Q)) in *.
  assert (ES : Rabs (bval sg - S) <= 70 * c * uu).
  { destruct TD as (_ & E & _). eapply Rle_trans; [exact E|]. rewrite Rmult_1_r. apply Rmult_le_compat_r; lra. }
  apply Rabs_le_inv in ES. apply Rabs_le_inv in SINT as SINT'.
  destruct (zero_b L bdot) as [FZ VZ].
  assert (FIN : ep2 + 140 * c * uu <= 1500 * c * uu).
  { unfold ep2, del. assert (uu <= c * uu) by (rewrite <- (Rmult_1_l uu) at 1; apply Rmult_le_compat_r; lra). lra. }
  assert (CU0 : 0 <= c * uu) by (apply Rmult_le_pos; lra).
  assert (CASES : S = x * y / 2 \/ S = - (x * y / 2)).
  { assert (Z : (S - x * y / 2) * (S + x * y / 2) = 0) by lra. apply Rmult_integral in Z. lra. }
  change (nlt A sg (nzero A)) with (b_lt sg (nzero A)). change (nneg A th) with (Bopp th).
  destruct (b_lt sg (nzero A)) eqn:LT; intros [= <-].
  - apply (b_lt_val _ _ (proj1 TD) FZ) in LT. rewrite VZ in LT. split; [unfold bfin; rewrite is_finite_Bopp; exact FH|].
    assert (VO : bval (Bopp th) = - bval th) by (unfold bval; apply B2R_Bopp). rewrite VO. split; [rewrite Rabs_Ropp; exact BTH|]. apply Rle_trans with (2 * (1500 * c * uu)); [|lra].
    apply turn_close; auto; rewrite ?cos_neg, ?sin_neg.
    + fold C. lra.
    + fold S. apply Rabs_le. lra.
  - assert (~ bval sg < 0) by (intros B; rewrite <- VZ in B; apply (b_lt_val _ _ (proj1 TD) FZ) in B; congruence). split; [exact FH|]. split; [exact BTH|]. apply Rle_trans with (2 * (1500 * c * uu)); [|lra].
    apply turn_close; auto.
    + fold C. lra.
    + fold S. apply Rabs_le. lra.
Qed.

Lemma sqrt_eps_b : bfin (nsqrt_eps A) /\ bval (nsqrt_eps A) = sqrt_eps.
Proof. split; [reflexivity|]. unfold sqrt_eps. vm_compute. lra. Qed.
(** The result either comes from the shortcut for close arguments or turns the one direction into the other. *)
Lemma sub1_acc c r m mk p q k pv qv kv t : 0 <= c -> 1 <= r -> r * (c + 80) <= 3000000000 -> rg 380 m -> rg 380 mk ->
  vtr c m p pv -> vtr c m q qv -> vtr c mk k kv -> kv <> vzero -> mk <= norm kv ->
  m <= r * norm (perp (dir kv) pv) -> m <= r * norm (perp (dir kv) qv) ->
  g_subproblem1 A p q k = Ok t -> bfin t /\ Rabs (bval t) <= 16 / 5 /\
    ((bval t = 0 /\ norm (vsub pv qv) <= sqrt_eps + 4 * (c + 10) * uu * m) \/
     norm (vsub (rotate (dir kv) (bval t) (dir (perp (dir kv) pv))) (dir (perp (dir kv) qv))) <= 300000 * (r * (c + 8)) * uu).
Proof.
  intros C R1 RC RM RK VP VQ VK NK MK MP MQ. pose proof uu_pos as U. assert (M1 : rg 390 m) by (apply (rg_weak 380); [lia | exact RM]). assert (MK1 : rg 390 mk) by (apply (rg_weak 380); [lia | exact RK]).
  pose proof (rg_pos _ _ RM) as M0. pose proof (rg_pos _ _ RK) as MK0.
  assert (RC8 : c + 8 <= r * (c + 8)) by (rewrite <- (Rmult_1_l (c + 8)) at 1; apply Rmult_le_compat_r; lra).
  assert (CC : c <= 3000000000) by nra. assert (R80 : r * (c + 8) <= 3000000000) by nra.
  unfold g_subproblem1. destruct (nlt A _ _) eqn:LT.
  - intros [= <-]. destruct (zero_b L bdot) as [FZ VZ]. split; [exact FZ|]. split; [replace (bval _) with 0 by (symmetry; exact VZ); rewrite Rabs_R0; lra|]. left. split; [exact VZ|].
    pose proof (vtr_sub L bdot c c m p q pv qv ltac:(unfold cb; lra) ltac:(unfold cb; lra) M1 VP VQ) as VS.
    assert (M2 : rg 390 (2 * m)) by (apply (rg_weak 383); [lia|]; apply (rg_scale 380); [exact RM | lra]).
    destruct (tr_norm bdot ((c + c) / 2 + 2) (2 * m) _ _ HD ltac:(unfold cb; lra) M2 VS) as [(F & E & _) _].
    change (nlt A (l_norm A (l_sub A p q)) (nsqrt_eps A)) with (b_lt (b_sqrt (bdot (l_sub A p q) (l_sub A p q))) (nsqrt_eps A)) in LT.
    destruct sqrt_eps_b as [FE VE]. apply (b_lt_val _ _ F FE) in LT. rewrite VE in LT. apply Rabs_le_inv in E. lra.
  - clear LT. cbv zeta. set (k' := l_div A k (l_norm A k)).
    assert (Uh : unit3 (dir kv)) by (apply dir_unit; exact NK). set (h := dir kv) in *.
    destruct (vtr_dir L bdot c mk 1 k kv HD) as [VK' _]; try lra; try assumption; [unfold cb; lra|]. fold k' in VK'. fold h in VK'.
    assert (VPP : forall l v, vtr c m l v -> m <= r * norm (perp h v) ->
      vtr (100 * (r * (c + 8))) 1 (l_div A (l_sub A l (l_scale A (bdot l k') k')) (l_norm A (l_sub A l (l_scale A (bdot l k') k')))) (dir (perp h v)) /\ unit3 (dir (perp h v)) /\ dot h (dir (perp h v)) = 0).
    { intros l v V Hv.
      assert (PN : 0 < norm (perp h v)). { apply Rnot_le_lt. intros Z. pose proof (norm_nonneg (perp h v)). assert (Q : norm (perp h v) = 0) by lra. rewrite Q in Hv. lra. }
      pose proof (vtr_perp L bdot c (4 * (1 * (c + 8))) m l k' v h HD C ltac:(lra) ltac:(unfold cb; lra) M1 Uh V VK') as VV.
      assert (CBB : cb (4 * (r * (5 * c + 5 * (4 * (1 * (c + 8))) + 32 + 8)))).
      { assert (r * (5 * c + 5 * (4 * (1 * (c + 8))) + 32 + 8) <= r * (25 * (c + 8))) by (apply Rmult_le_compat_l; lra).
        split; [apply Rmult_le_pos; [lra|]; apply Rmult_le_pos; lra | lra]. }
      destruct (vtr_dir L bdot (5 * c + 5 * (4 * (1 * (c + 8))) + 32) m r _ _ HD ltac:(lra) CBB R1 M1 PN Hv VV) as [VD _].
      split; [|split].
      - eapply vtr_weak; [|lra | exact VD]. assert (r * (5 * c + 5 * (4 * (1 * (c + 8))) + 32 + 8) <= r * (25 * (c + 8))) by (apply Rmult_le_compat_l; lra). lra.
      - apply dir_unit. intros Z. rewrite Z, norm_vzero in PN. lra.
      - unfold dir. rewrite dot_vscale_r, perp_dot by exact Uh. ring. }
    destruct (VPP p pv VP MP) as (V1 & U1 & O1). destruct (VPP q qv VQ MQ) as (V2 & U2 & O2).
    change (ndot A p k') with (bdot p k'). change (ndot A q k') with (bdot q k').
    assert (VK2 : vtr (100 * (r * (c + 8))) 1 k' h) by (eapply vtr_weak; [|lra | exact VK']; lra).
    intros E. destruct (sub0_acc (100 * (r * (c + 8))) _ _ _ _ _ _ t ltac:(lra) V1 V2 VK2 U1 U2 Uh O1 O2 E) as (F & BT & N). split; [exact F|]. split; [exact BT|]. right.
    eapply Rle_trans; [exact N|]. right. ring.
Qed.
End Angle.
