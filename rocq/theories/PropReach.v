(** Property C82, what the angles of subproblem3 achieve in binary64. *)
From Coq Require Import Reals ZArith List Bool Lra Lia Psatz.
From Flocq Require Import Core.Core IEEE754.BinarySingleNaN.
From Verif Require Import LinAlg RealAux Py FactsReal FactsLinAlg ModelRot SpecRot FactsRot FactsRot2 FactsNorm SpecSub FactsSub ModelRobot ModelFloat SpecRound FactsB64 FactsExact PropB64 PropNorm FactsTrack SpecArc FactsAngle PropElbow PropSlerp PropPi PropAngle.
Import ListNotations.
Open Scope R_scope.

Lemma rotate_0 h v : rotate h 0 v = v. Proof. unfold rotate. rewrite cos_0, sin_0. la_ring. Qed.
Lemma swing h a b x th ch : unit3 h -> unit3 b -> dot h b = 0 -> norm (vsub (rotate h th a) b) <= ch ->
  Rabs (dot (mvec (rot h x) a) b - cos (x - th)) <= ch.
Proof.
  intros U Ub O H. rewrite <- rot_rotate in H by exact U. replace x with (x - th + th) at 1 by ring. rewrite <- rot_rot by exact U.
  set (w := mvec (rot h th) a) in *. replace w with (vadd b (vsub w b)) by la_ring. rewrite mvec_vadd.
  destruct (plane_rot_angle h b (x - th) U O Ub) as [C _].
  replace (dot (vadd (mvec (rot h (x - th)) b) (mvec (rot h (x - th)) (vsub w b))) b) with (dot b (mvec (rot h (x - th)) b) + dot (mvec (rot h (x - th)) (vsub w b)) b) by la_ring.
  rewrite C. replace (cos (x - th) + dot (mvec (rot h (x - th)) (vsub w b)) b - cos (x - th)) with (dot (mvec (rot h (x - th)) (vsub w b)) b) by ring.
  eapply Rle_trans; [apply abs_dot_le|]. rewrite (norm_SO3 (rot h (x - th))) by (apply rot_SO3, U). rewrite (norm_unit b Ub). lra.
Qed.

Section Residual.
Context (L : libm) (bdot : list b64 -> list b64 -> b64) (HD : In bdot b_dots) (HL : libm_arc_ok L (8 * uu)).
Context (p q k : list b64) (d : b64) (p0 q0 k0 : vec3) (M : R).
Context (HM : moderate M) (Hp : stored M p p0) (Hq : stored M q q0) (Hk : stored_axis k k0) (Fd : bfin d) (Bd : Rabs (bval d) <= M).
Context (Ap : M <= 1048576 * norm (perp k0 p0)) (Aq : M <= 1048576 * norm (perp k0 q0)).
Local Notation A := (b64_arith L bdot).
Local Notation pp := (sp3_pp L bdot p k).
Local Notation qp := (sp3_qp L bdot q k).
Local Notation num := (sp3_num L bdot p q k d).
Local Notation den := (sp3_den L bdot p q k).
Local Notation a := (norm (perp k0 p0)).
Local Notation b := (norm (perp k0 q0)).
Local Notation num0 := (bval d * bval d - base_sq p0 q0 k0 - dot (perp k0 p0) (perp k0 p0) - dot (perp k0 q0) (perp k0 q0)).

Lemma MP : 0 < M. Proof. exact (rg_pos 380 M HM). Qed.
Lemma a_pos : 0 < a /\ a <= M.
Proof. pose proof MP. split; [lra|]. destruct (pp_tr L bdot HD p k p0 k0 M HM Hp Hk) as (_ & _ & _ & _ & _ & _ & _ & W). exact W. Qed.
Lemma b_pos : 0 < b /\ b <= M.
Proof. pose proof MP. split; [lra|]. destruct (qp_tr L bdot HD q k q0 k0 M HM Hq Hk) as (_ & _ & _ & _ & _ & _ & _ & W). exact W. Qed.

(** the ratio of the sizes *)
Lemma ratio : exists r, 1 <= r <= 1048576 /\ M <= r * a /\ M <= r * b /\ r * (a * b) <= M * M.
Proof.
  pose proof MP. destruct a_pos as [A0 A1]. destruct b_pos as [B0 B1].
  assert (G : forall x y, 0 < x -> x <= y -> y <= M -> M <= 1048576 * x -> 1 <= M / x <= 1048576 /\ M <= M / x * x /\ M <= M / x * y /\ M / x * (x * y) <= M * M).
  { intros x y X0 XY YM MX. assert (E : M / x * x = M) by (field; lra). assert (P : 0 < M / x) by (apply Rdiv_lt_0_compat; lra). split; [split|split; [|split]].
    - apply Rmult_le_reg_r with x; lra.
    - apply Rmult_le_reg_r with x; lra.
    - lra.
    - rewrite <- E at 1. apply Rmult_le_compat_l; lra.
    - rewrite <- Rmult_assoc, E. apply Rmult_le_compat_l; lra. }
  destruct (Rle_dec a b) as [C | C].
  - exists (M / a). destruct (G a b A0 C B1 Ap) as (G1 & G2 & G3 & G4). auto.
  - exists (M / b). destruct (G b a B0 ltac:(lra) A1 Aq) as (G1 & G2 & G3 & G4). rewrite (Rmult_comm a b). auto.
Qed.

(** the cosine *)
Lemma cosine : b_lt (b_lit 1 1) (Babs (b_div num den)) = false ->
  bfin (b_div num den) /\ Rabs (bval (b_div num den)) <= 1 /\ Rabs (2 * (a * b) * bval (b_div num den) - num0) <= 2209 * (uu * (M * M)).
Proof.
  intros LT. destruct (sp3_values L bdot HD p q k d p0 q0 k0 M HM Hp Hq Hk Fd Bd) as (_ & (FN & EN) & (FE & E0 & EE)).
  pose proof MP as M0. destruct a_pos as [A0 A1]. destruct b_pos as [B0 B1]. pose proof uu_pos as U. pose proof uu_small as US. pose proof ee_le_uu as EU. pose proof uu_val' as UV.
  assert (UM : 0 < uu * (M * M)) by (apply Rmult_lt_0_compat; [lra|]; apply Rmult_lt_0_compat; lra).
  assert (AB : a * b <= M * M) by (apply Rmult_le_compat; lra).
  assert (AB2 : 8192 * uu * (M * M) <= a * b).
  { apply Rle_trans with ((M / 1048576) * (M / 1048576)); [rewrite UV; nra|]. apply Rmult_le_compat; lra. }
  pose proof EN as EN'. pose proof EE as EE'. apply Rabs_le_inv in EE'.
  set (x := bval num / bval den).
  assert (DP : 8192 * (uu * (M * M)) <= bval den) by lra.
  assert (DU : bval den <= 3 * (M * M)) by (assert (700 * uu * (M * M) <= 1 * (M * M)) by (apply Rmult_le_compat_r; [apply Rmult_le_pos; lra | lra]); lra).
  assert (XD : x * bval den = bval num) by (unfold x; field; lra).
  (* the quotient does not overflow *)
  assert (NB : Rabs (bval num) <= 16 * (M * M)).
  { assert (BS : 0 <= base_sq p0 q0 k0 <= 4 * (M * M)).
    { unfold base_sq. split; [nra|]. set (s := dot k0 (vadd p0 q0)). assert (S : Rabs s <= 2 * M).
      { eapply Rle_trans; [apply abs_dot_le|]. rewrite (norm_unit k0) by apply Hk. pose proof (norm_triangle p0 q0).
        destruct (stored_vtr _ _ _ Hp) as (_ & _ & _ & _ & _ & _ & _ & W1). destruct (stored_vtr _ _ _ Hq) as (_ & _ & _ & _ & _ & _ & _ & W2). lra. }
      apply Rabs_le_inv in S. nra. }
    apply Rabs_le_inv in EN. apply Rabs_le_inv in Bd. rewrite <- !norm_sq in EN.
    assert (0 <= bval d * bval d <= M * M) by nra. assert (0 <= a * a <= M * M) by nra. assert (0 <= b * b <= M * M) by nra.
    assert (1500 * uu * (M * M) <= 1 * (M * M)) by (apply Rmult_le_compat_r; [apply Rmult_le_pos; lra | lra]). apply Rabs_le. lra. }
  assert (XB : Rabs x <= bpow radix2 60).
  { unfold x, Rdiv. rewrite Rabs_mult, Rabs_inv, (Rabs_right (bval den)) by lra. apply Rmult_le_reg_r with (bval den); [lra|]. rewrite Rmult_assoc, Rinv_l, Rmult_1_r by lra.
    apply Rle_trans with (1 := NB). apply Rle_trans with (bpow radix2 60 * (8192 * (uu * (M * M)))); [|apply Rmult_le_compat_l; [apply bpow_ge_0 | exact DP]].
    rewrite UV. change (bpow radix2 60) with 1152921504606846976. nra. }
  destruct (div_range num den FN ltac:(lra)) as [FD VD]. { apply in_range. fold x. eapply Rle_trans; [exact XB|]. apply bpow_le. lia. }
  fold x in VD. split; [exact FD|].
  assert (B1' : Rabs (bval (b_div num den)) <= 1). { destruct (Rle_dec (Rabs (bval (b_div num den))) 1) as [C | C]; [exact C|]. exfalso. apply Rnot_le_lt in C. apply (lt_abs _ FD) in C. rewrite C in LT. discriminate LT. }
  split; [exact B1'|].
  set (bb := bval (b_div num den)) in *. pose proof (rnd_err x) as RE. rewrite <- VD in RE.
  assert (X2 : Rabs x <= 2). { pose proof (Rabs_triang_inv x bb) as T. rewrite (Rabs_minus_sym x bb) in T. assert (uu * Rabs x <= 1 / 1000 * Rabs x) by (apply Rmult_le_compat_r; [apply Rabs_pos | lra]). lra. }
  assert (XE : Rabs (bb - x) <= 3 * uu) by (assert (uu * Rabs x <= uu * 2) by (apply Rmult_le_compat_l; lra); lra).
  assert (T1 : Rabs ((bb - x) * bval den) <= 9 * (uu * (M * M))).
  { rewrite Rabs_mult, (Rabs_right (bval den)) by lra. replace (9 * (uu * (M * M))) with (3 * uu * (3 * (M * M))) by ring. apply Rmult_le_compat; try lra. apply Rabs_pos. }
  assert (T2 : Rabs ((bval den - 2 * a * b) * bb) <= 700 * (uu * (M * M))).
  { rewrite Rabs_mult. rewrite <- (Rmult_1_r (700 * _)). apply Rmult_le_compat; try apply Rabs_pos; [lra | exact B1']. }
  replace (2 * (a * b) * bb - num0) with ((bb - x) * bval den - (bval den - 2 * a * b) * bb + (bval num - num0)) by (rewrite <- XD; ring).
  apply Rabs_le_inv in T1. apply Rabs_le_inv in T2. apply Rabs_le_inv in EN'. apply Rabs_le. lra.
Qed.

(** the first angle *)
Lemma first_angle th : g_subproblem1 A (l_div A pp (l_norm A pp)) (l_div A qp (l_norm A qp)) k = Ok th ->
  bfin th /\ Rabs (bval th) <= 16 / 5 /\ exists ch, 2 * (a * b) * ch <= 270000000 * (uu * (M * M)) /\
    norm (vsub (rotate k0 (bval th) (dir (perp k0 p0))) (dir (perp k0 q0))) <= ch.
Proof.
  intros E. destruct ratio as (r & [R1 R2] & Ra & Rb & RR). pose proof MP as M0. destruct a_pos as [A0 A1]. destruct b_pos as [B0 B1]. pose proof uu_pos as U. pose proof uu_val' as UV.
  assert (Uk : unit3 k0) by apply Hk. assert (RM : rg 390 M) by (apply mod_rg, HM).
  assert (CB : cb (4 * (r * (72 + 8)))) by (unfold cb; lra).
  destruct (vtr_dir L bdot 72 M r _ _ HD ltac:(lra) CB R1 RM A0 Ra (pp_tr L bdot HD p k p0 k0 M HM Hp Hk)) as [VP _].
  destruct (vtr_dir L bdot 72 M r _ _ HD ltac:(lra) CB R1 RM B0 Rb (qp_tr L bdot HD q k q0 k0 M HM Hq Hk)) as [VQ _].
  set (c := 4 * (r * (72 + 8))) in *.
  assert (VK : vtr c 1 k k0) by (apply (vtr_weak 8); [unfold c; lra | lra | apply axis_vtr, Hk]).
  assert (KZ : k0 <> vzero) by (intros Z; rewrite Z in Uk; unfold unit3, dot in Uk; cbn in Uk; lra).
  assert (NZp : perp k0 p0 <> vzero) by (intros Z; rewrite Z, norm_vzero in A0; lra).
  assert (NZq : perp k0 q0 <> vzero) by (intros Z; rewrite Z, norm_vzero in B0; lra).
  pose proof (norm_unit k0 Uk) as NK. assert (DK : dir k0 = k0) by (unfold dir; rewrite NK; rewrite Rinv_1; apply vscale_1).
  assert (R380 : rg 380 1) by (apply rg_1; lia).
  destruct (sub1_acc L bdot HD HL c 1 1 1 _ _ k (dir (perp k0 p0)) (dir (perp k0 q0)) k0 th ltac:(unfold c; lra) ltac:(lra) ltac:(unfold c; lra) R380 R380 VP VQ VK KZ ltac:(lra)
    ltac:(rewrite DK, perp_dir by exact Uk; rewrite (norm_unit (dir (perp k0 p0))) by (apply dir_unit, NZp); lra)
    ltac:(rewrite DK, perp_dir by exact Uk; rewrite (norm_unit (dir (perp k0 q0))) by (apply dir_unit, NZq); lra) E) as (F & B & H).
  split; [exact F|]. split; [exact B|]. rewrite DK in H. rewrite !perp_dir in H by exact Uk.
  assert (DD : forall v, v <> vzero -> dir (dir v) = dir v). { intros v Z. unfold dir at 1. rewrite (norm_unit (dir v)) by (apply dir_unit, Z). rewrite Rinv_1. apply vscale_1. }
  rewrite (DD _ NZp), (DD _ NZq) in H.
  assert (AB : a * b <= M * M) by (apply Rmult_le_compat; lra). assert (AB0 : 0 < a * b) by (apply Rmult_lt_0_compat; lra).
  assert (U1 : uu * (r * (a * b)) <= uu * (M * M)) by (apply Rmult_le_compat_l; lra).
  assert (U2 : uu * (a * b) <= uu * (M * M)) by (apply Rmult_le_compat_l; lra).
  destruct H as [[Z N] | N].
  - exists (sqrt_eps + 4 * (c + 10) * uu * 1). split.
    + replace (sqrt_eps) with (134217728 * uu) by (unfold sqrt_eps; rewrite UV; field). unfold c.
      replace (2 * (a * b) * (134217728 * uu + 4 * (4 * (r * (72 + 8)) + 10) * uu * 1)) with (268435536 * (uu * (a * b)) + 2560 * (uu * (r * (a * b)))) by ring.
      assert (0 < uu * (M * M)) by (apply Rmult_lt_0_compat; [lra|]; apply Rmult_lt_0_compat; lra). lra.
    + rewrite Z. replace (rotate k0 0 (dir (perp k0 p0))) with (dir (perp k0 p0)); [exact N|]. symmetry. apply rotate_0.
  - exists (300000 * (1 * (c + 8)) * uu). split; [|exact N]. unfold c.
    replace (2 * (a * b) * (300000 * (1 * (4 * (r * (72 + 8)) + 8)) * uu)) with (4800000 * (uu * (a * b)) + 192000000 * (uu * (r * (a * b)))) by ring.
    assert (0 < uu * (M * M)) by (apply Rmult_lt_0_compat; [lra|]; apply Rmult_lt_0_compat; lra). lra.
Qed.

(** the sum or difference of the two angles *)
Lemma both_angles th phi phi0 x : bfin th -> Rabs (bval th) <= 16 / 5 -> bfin phi -> 0 <= phi0 <= 3.2 -> Rabs (bval phi - phi0) <= 8 * uu ->
  In x (if b_lt (nzero A) (Babs phi) then [b_add th phi; b_sub th phi] else [th]) ->
  bfin x /\ Rabs (bval x) <= 13 / 2 /\ Rabs (cos (bval x - bval th) - cos phi0) <= 25 * uu.
Proof.
  intros Ft Bt Fp P0 EP HI. pose proof uu_pos as U. pose proof uu_small as US. pose proof ee_le_uu as EU.
  apply Rabs_le_inv in EP. apply Rabs_le_inv in Bt.
  assert (G : forall y, isv x (rnd (bval th + y)) -> Rabs (Rabs y - phi0) <= 8 * uu -> bfin x /\ Rabs (bval x) <= 13 / 2 /\ Rabs (cos (bval x - bval th) - cos phi0) <= 25 * uu).
  { intros y [Fx Vx] Ey. split; [exact Fx|]. apply Rabs_le_inv in Ey. pose proof (rnd_err (bval th + y)) as RE. rewrite <- Vx in RE.
    assert (B16 : Rabs (bval th + y) <= 6.45). { pose proof (Rabs_pos y). pose proof (Rle_abs y). pose proof (Rle_abs (- y)) as Y2. rewrite Rabs_Ropp in Y2. apply Rabs_le. lra. }
    assert (uu * Rabs (bval th + y) <= uu * 6.45) by (apply Rmult_le_compat_l; lra).
    split; [apply Rabs_le_inv in RE, B16; apply Rabs_le; lra|].
    replace (cos phi0) with (cos (Rabs y) + (cos phi0 - cos (Rabs y))) by ring. 
    assert (CA : cos (Rabs y) = cos y) by (unfold Rabs; destruct (Rcase_abs y); [apply cos_neg | reflexivity]).
    pose proof (cos_lip (bval x - bval th) y) as C1. pose proof (cos_lip phi0 (Rabs y)) as C2. rewrite CA in C2 |- *.
    replace (bval x - bval th - y) with (bval x - (bval th + y)) in C1 by ring.
    assert (Rabs (phi0 - Rabs y) <= 8 * uu) by (apply Rabs_le; lra).
    apply Rle_trans with (Rabs (cos (bval x - bval th) - cos y) + Rabs (cos phi0 - cos y)); [|lra].
    replace (cos (bval x - bval th) - (cos y + (cos phi0 - cos y))) with ((cos (bval x - bval th) - cos y) + - (cos phi0 - cos y)) by ring.
    eapply Rle_trans; [apply Rabs_triang|]. rewrite Rabs_Ropp. lra. }
  assert (PA : Rabs (Rabs (bval phi) - phi0) <= 8 * uu).
  { pose proof (Rabs_triang_inv2 (bval phi) phi0) as T. rewrite (Rabs_right phi0) in T by lra. eapply Rle_trans; [exact T|]. apply Rabs_le. lra. }
  assert (RG : forall y, -4 <= y <= 4 -> Rlt_bool (Rabs (rnd (bval th + y))) (bpow radix2 1024) = true).
  { intros y Hy. apply in_range. apply Rle_trans with (bpow radix2 5); [apply Rabs_le; cbn; lra | apply bpow_le; lia]. }
  assert (FA : bfin (Babs phi)) by (unfold bfin; rewrite is_finite_Babs; exact Fp). assert (VA : bval (Babs phi) = Rabs (bval phi)) by (unfold bval; apply B2R_Babs).
  destruct (zero_val L bdot) as [FZ VZ]. pose proof (b_lt_val _ _ FZ FA) as LT. rewrite VZ, VA in LT.
  destruct (b_lt (nzero A) (Babs phi)); cbn [In] in HI.
  - destruct HI as [E | [E | []]]; subst x.
    + apply (G (bval phi)); [|exact PA]. apply add_range; [exact Ft | exact Fp |]. apply RG. lra.
    + apply (G (- bval phi)); [|rewrite Rabs_Ropp; exact PA]. apply sub_range; [exact Ft | exact Fp |]. apply RG. lra.
  - destruct HI as [E | []]; subst x. apply (G 0).
    + split; [exact Ft|]. rewrite Rplus_0_r. symmetry. apply rnd_exact, fmt_bval.
    + destruct (Req_dec (bval phi) 0) as [Z | NZ]; [rewrite <- Z; exact PA|]. exfalso. apply Rabs_pos_lt in NZ. apply LT in NZ. discriminate NZ.
Qed.

Lemma residual l x : g_subproblem3 A p q k d = Ok l -> In x l -> bfin x /\ Rabs (bval x) <= 13 / 2 /\ Rabs (reach_sq k0 p0 q0 (bval x) - bval d * bval d) <= 536870912 * (uu * (M * M)).
Proof.
  intros E HI. rewrite sp3_unfold in E. destruct (b_lt (sp3_dpsq _ _ _ _ _ _) _); cbn [orb] in E; [injection E as <-; destruct HI|].
  destruct (b_lt (b_lit 1 1) _) eqn:LT; [injection E as <-; destruct HI|].
  destruct (g_subproblem1 _ _ _ _) as [th | e] eqn:ET in E; cbn [bind] in E; [|discriminate E]. cbv zeta in E.
  destruct (cosine LT) as (FB & B1 & EB). destruct (first_angle th ET) as (Ft & Bt & ch & HC & N).
  destruct (proj2 HL _ FB B1) as [Fp EP]. set (phi := m_acos L (b_div num den)) in *.
  assert (HX : In x (if b_lt (nzero A) (Babs phi) then [b_add th phi; b_sub th phi] else [th])) by (destruct (b_lt (nzero A) (Babs phi)); injection E as <-; exact HI).
  pose proof pi_hi as PH. pose proof (acos_bound (bval (b_div num den))) as AB.
  destruct (both_angles th phi (acos (bval (b_div num den))) x Ft Bt Fp ltac:(lra) EP HX) as (Fx & SX & CX). split; [exact Fx|]. split; [exact SX|].
  rewrite cos_acos in CX by (apply Rabs_le_inv in B1; lra).
  pose proof MP as M0. destruct a_pos as [A0 A1]. destruct b_pos as [B0 BB1]. pose proof uu_pos as U.
  assert (Uk : unit3 k0) by apply Hk.
  assert (NZp : perp k0 p0 <> vzero) by (intros Z; rewrite Z, norm_vzero in A0; lra).
  assert (NZq : perp k0 q0 <> vzero) by (intros Z; rewrite Z, norm_vzero in B0; lra).
  assert (OQ : dot k0 (dir (perp k0 q0)) = 0) by (unfold dir; rewrite dot_vscale_r, perp_dot by exact Uk; ring).
  pose proof (swing k0 _ _ (bval x) (bval th) ch Uk (dir_unit _ NZq) OQ N) as SW.
  unfold reach_sq. rewrite <- rot_rotate, sp3_dist by exact Uk.
  set (D := dot (mvec (rot k0 (bval x)) (dir (perp k0 p0))) (dir (perp k0 q0))) in *.
  assert (EX : dot (mvec (rot k0 (bval x)) (perp k0 p0)) (perp k0 q0) = a * b * D).
  { rewrite <- (dir_scale (perp k0 p0) NZp) at 1. rewrite <- (dir_scale (perp k0 q0) NZq) at 1. rewrite mvec_vscale, dot_vscale_l, dot_vscale_r. fold D. ring. }
  rewrite EX. set (bb := bval (b_div num den)) in *. unfold base_sq in EB.
  set (S := dot k0 (vadd p0 q0) * dot k0 (vadd p0 q0)) in *. set (P2 := dot (perp k0 p0) (perp k0 p0)) in *. set (Q2 := dot (perp k0 q0) (perp k0 q0)) in *.
  replace (S + (P2 + Q2 + 2 * (a * b * D)) - bval d * bval d) with (2 * (a * b) * (D - bb) + (2 * (a * b) * bb - (bval d * bval d - S - P2 - Q2))) by ring.
  assert (DB : Rabs (D - bb) <= ch + 25 * uu). { replace (D - bb) with ((D - cos (bval x - bval th)) + (cos (bval x - bval th) - bb)) by ring. eapply Rle_trans; [apply Rabs_triang|]. lra. }
  assert (ABM : a * b <= M * M) by (apply Rmult_le_compat; lra). assert (AB0 : 0 < a * b) by (apply Rmult_lt_0_compat; lra).
  assert (T : Rabs (2 * (a * b) * (D - bb)) <= 2 * (a * b) * (ch + 25 * uu)) by (rewrite Rabs_mult, (Rabs_right (2 * (a * b))) by lra; apply Rmult_le_compat_l; lra).
  assert (U2 : uu * (a * b) <= uu * (M * M)) by (apply Rmult_le_compat_l; lra).
  assert (0 < uu * (M * M)) by (apply Rmult_lt_0_compat; [lra|]; apply Rmult_lt_0_compat; lra).
  eapply Rle_trans; [apply Rabs_triang|]. lra.
Qed.
End Residual.

(** Every angle that subproblem3 returns brings the sum of the two vectors to the wanted distance, up to
    2^-24 of the squared size, if neither vector is closer to the axis than 2^-20 of that size. *)
Theorem C82_residual : forall L bdot p q k d p0 q0 k0 M l x, In bdot b_dots -> libm_arc_ok L (bpow radix2 (-50)) ->
  moderate M -> stored M p p0 -> stored M q q0 -> stored_axis k k0 -> bfin d -> Rabs (bval d) <= M ->
  M <= bpow radix2 20 * norm (perp k0 p0) -> M <= bpow radix2 20 * norm (perp k0 q0) ->
  g_subproblem3 (b64_arith L bdot) p q k d = Ok l -> In x l ->
  bfin x /\ Rabs (reach_sq k0 p0 q0 (bval x) - bval d * bval d) <= bpow radix2 (-24) * (M * M).
Proof.
  intros L bdot p q k d p0 q0 k0 M l x HD HL HM Hp Hq Hk Fd Bd Ap Aq E HI. rewrite eight in HL.
  destruct (residual L bdot HD HL p q k d p0 q0 k0 M HM Hp Hq Hk Fd Bd Ap Aq l x E HI) as (F & _ & H). split; [exact F|].
  replace (bpow radix2 (-24)) with (536870912 * uu) by (rewrite uu_val'; cbn; lra). lra.
Qed.

(* ---- coordinate axes: always an answer ---- *)
Definition e_axis (i : nat) : vec3 := match i with 0%nat => V3 1 0 0 | 1%nat => V3 0 1 0 | _ => V3 0 0 1 end.
Lemma e_stored i : stored_axis (b_axis i) (e_axis i).
Proof.
  assert (O : bval (b_ofZ 1) = 1) by (vm_compute; lra). assert (Z : bval (b_ofZ 0) = 0) by (vm_compute; lra). pose proof (bpow_ge_0 radix2 (-50)) as B.
  destruct i as [|[|i]]; (split; [unfold unit3, dot; cbn; ring|]; do 3 eexists; split; [reflexivity|]; do 3 (split; [reflexivity|]); cbn [vx vy vz e_axis]; rewrite O, Z;
    repeat split; match goal with |- Rabs (?x - ?x) <= _ => replace (x - x) with 0 by ring; rewrite Rabs_R0; exact B end).
Qed.
Lemma dir_off c i l v : (i < 3)%nat -> c * uu <= 1 / 4 -> unit3 v -> dot (e_axis i) v = 0 -> vtr c 1 l v ->
  exists x y z, l = [x; y; z] /\ upto 400 x /\ upto 400 y /\ upto 400 z /\ off_axis i l.
Proof.
  intros Hi C U O (x & y & z & -> & (Fx & Ex & Sx) & (Fy & Ey & Sy) & (Fz & Ez & Sz) & N). rewrite Rmult_1_r in *.
  assert (UP : forall w s, bfin w -> Rabs (bval w - s) <= c * uu -> Rabs s <= 1 -> upto 400 w).
  { intros w s F E B. split; [exact F|]. apply Rle_trans with (bpow radix2 1); [|apply bpow_le; lia]. apply Rabs_le_inv in E. apply Rabs_le_inv in B. apply Rabs_le. cbn. lra. }
  exists x, y, z. split; [reflexivity|]. split; [eapply UP; eassumption|]. split; [eapply UP; eassumption|]. split; [eapply UP; eassumption|].
  assert (BIG : forall w s, Rabs (bval w - s) <= c * uu -> 1 / 2 <= Rabs s -> bpow radix2 (-400) <= Rabs (bval w)).
  { intros w s E B. apply Rle_trans with (bpow radix2 (-2)); [apply bpow_le; lia|]. cbn. pose proof (Rabs_triang_inv s (bval w)) as T. rewrite (Rabs_minus_sym s) in T. lra. }
  assert (H : forall s t, s * s + t * t = 1 -> 1 / 2 <= Rabs s \/ 1 / 2 <= Rabs t).
  { intros s t E. destruct (Rle_dec (1 / 2) (Rabs s)) as [H | H]; [left; exact H|]. right. apply Rnot_le_lt in H. destruct (Rle_dec (1 / 2) (Rabs t)) as [H2 | H2]; [exact H2|]. exfalso. apply Rnot_le_lt in H2.
    apply Rabs_def2 in H. apply Rabs_def2 in H2. nra. }
  destruct v as [v1 v2 v3]. unfold unit3, dot in *. cbn [vx vy vz] in *.
  destruct i as [|[|[|i]]]; [| | |lia]; cbn [e_axis vx vy vz] in O.
  - assert (v1 = 0) by lra. subst v1. destruct (H v2 v3 ltac:(lra)) as [B | B]; [exists 1%nat, y | exists 2%nat, z]; (split; [lia|]; split; [reflexivity|]; eapply BIG; eassumption).
  - assert (v2 = 0) by lra. subst v2. destruct (H v1 v3 ltac:(lra)) as [B | B]; [exists 0%nat, x | exists 2%nat, z]; (split; [lia|]; split; [reflexivity|]; eapply BIG; eassumption).
  - assert (v3 = 0) by lra. subst v3. destruct (H v1 v2 ltac:(lra)) as [B | B]; [exists 0%nat, x | exists 1%nat, y]; (split; [lia|]; split; [reflexivity|]; eapply BIG; eassumption).
Qed.

Theorem C82_coordinate_axis : forall L bdot p q i d p0 q0 M t t', In bdot b_dots -> libm_arc_ok L (bpow radix2 (-50)) -> (i < 3)%nat ->
  moderate M -> stored M p p0 -> stored M q q0 -> bfin d -> Rabs (bval d) <= M ->
  M <= bpow radix2 20 * norm (perp (e_axis i) p0) -> M <= bpow radix2 20 * norm (perp (e_axis i) q0) ->
  reach_sq (e_axis i) p0 q0 t <= bval d * bval d - bpow radix2 (-40) * (M * M) -> bval d * bval d + bpow radix2 (-40) * (M * M) <= reach_sq (e_axis i) p0 q0 t' ->
  exists l, g_subproblem3 (b64_arith L bdot) p q (b_axis i) d = Ok l /\ l <> [] /\
    forall x, In x l -> bfin x /\ Rabs (reach_sq (e_axis i) p0 q0 (bval x) - bval d * bval d) <= bpow radix2 (-24) * (M * M).
Proof.
  intros L bdot p q i d p0 q0 M t t' HD HL Hi HM Hp Hq Fd Bd Ap Aq H1 H2. pose proof (e_stored i) as Hk.
  pose proof (C82_inside L bdot p q (b_axis i) d p0 q0 (e_axis i) M t t' HD HM Hp Hq Hk Fd Bd H1 H2) as NE.
  destruct (g_subproblem3 (b64_arith L bdot) p q (b_axis i) d) as [l | e] eqn:E.
  { exists l. split; [reflexivity|]. split; [intros ->; apply NE; reflexivity|]. intros x HI.
    exact (C82_residual L bdot p q (b_axis i) d p0 q0 (e_axis i) M l x HD HL HM Hp Hq Hk Fd Bd Ap Aq E HI). }
  exfalso. rewrite sp3_unfold in E. destruct (_ || _)%bool; [discriminate E|].
  set (k0 := e_axis i) in *. change (bpow radix2 20) with 1048576 in *.
  pose proof (rg_pos 380 M HM) as M0. assert (Uk : unit3 k0) by apply Hk. assert (RM : rg 390 M) by (apply mod_rg, HM).
  assert (CB : cb (4 * (1048576 * (72 + 8)))) by (unfold cb; lra). assert (A0 : 0 < norm (perp k0 p0)) by lra. assert (B0 : 0 < norm (perp k0 q0)) by lra.
  destruct (vtr_dir L bdot 72 M 1048576 _ _ HD ltac:(lra) CB ltac:(lra) RM A0 Ap (pp_tr L bdot HD p (b_axis i) p0 k0 M HM Hp Hk)) as [VP _].
  destruct (vtr_dir L bdot 72 M 1048576 _ _ HD ltac:(lra) CB ltac:(lra) RM B0 Aq (qp_tr L bdot HD q (b_axis i) q0 k0 M HM Hq Hk)) as [VQ _].
  assert (NZp : perp k0 p0 <> vzero) by (intros Z; rewrite Z, norm_vzero in Ap; lra).
  assert (NZq : perp k0 q0 <> vzero) by (intros Z; rewrite Z, norm_vzero in Aq; lra).
  assert (OP : dot k0 (dir (perp k0 p0)) = 0) by (unfold dir; rewrite dot_vscale_r, perp_dot by exact Uk; ring).
  assert (OQ : dot k0 (dir (perp k0 q0)) = 0) by (unfold dir; rewrite dot_vscale_r, perp_dot by exact Uk; ring).
  assert (CU : 4 * (1048576 * (72 + 8)) * uu <= 1 / 4) by (rewrite uu_val'; lra).
  destruct (dir_off _ i _ _ Hi CU (dir_unit _ NZp) OP VP) as (x0 & x1 & x2 & EP & U0 & U1 & U2 & OFP).
  destruct (dir_off _ i _ _ Hi CU (dir_unit _ NZq) OQ VQ) as (y0 & y1 & y2 & EQ & W0 & W1 & W2 & OFQ).
  rewrite EP in *. rewrite EQ in *.
  destruct (C79_coordinate_axis L bdot i x0 x1 x2 y0 y1 y2 HD Hi ltac:(repeat (apply Forall_cons; [assumption|]); apply Forall_nil) OFP OFQ) as [th ET].
  rewrite ET in E. cbn [bind] in E. cbv zeta in E. destruct (b_lt _ _) in E; discriminate E.
Qed.

(** (0, 4, 2) turned about the last axis and added to (3, 0, 1): the squares of the distances run from 10 to 58 *)
Example C82_inside_ex : let p0 := V3 0 4 2 in let q0 := V3 3 0 1 in let d := b_ofZ 5 in
  libm_arc_ok arc_libm (bpow radix2 (-50)) /\ moderate 8 /\ stored 8 (b_vec [0;4;2]%Z) p0 /\ stored 8 (b_vec [3;0;1]%Z) q0 /\ stored_axis (b_axis 2) (e_axis 2) /\
  bfin d /\ Rabs (bval d) <= 8 /\ 8 <= bpow radix2 20 * norm (perp (e_axis 2) p0) /\ 8 <= bpow radix2 20 * norm (perp (e_axis 2) q0) /\
  reach_sq (e_axis 2) p0 q0 (PI / 2) <= bval d * bval d - bpow radix2 (-40) * (8 * 8) /\ bval d * bval d + bpow radix2 (-40) * (8 * 8) <= reach_sq (e_axis 2) p0 q0 (- (PI / 2)).
Proof.
  cbv zeta. assert (V : bval (b_ofZ 5) = 5) by (vm_compute; lra). rewrite V.
  assert (N : forall v x, 0 <= x -> dot v v = x * x -> norm v = x). { intros v x X E. unfold norm, norm2. rewrite E. apply sqrt_square, X. }
  assert (B : bpow radix2 (-40) <= 1 / 1024) by (apply Rle_trans with (bpow radix2 (-10)); [apply bpow_le; lia | cbn; lra]).
  assert (PPp : norm (perp (e_axis 2) (V3 0 4 2)) = 4) by (apply N; [lra | unfold perp, dot, vsub, vscale; cbn; lra]).
  assert (PPq : norm (perp (e_axis 2) (V3 3 0 1)) = 3) by (apply N; [lra | unfold perp, dot, vsub, vscale; cbn; lra]).
  split; [apply arc_libm_ok|]. split; [apply int_moderate; lra|].
  split; [apply vec_val; [ofz | lra | unfold dot; cbn; lra]|]. split; [apply vec_val; [ofz | lra | unfold dot; cbn; lra]|]. split; [apply e_stored|].
  split; [reflexivity|]. split; [rewrite Rabs_right; lra|]. rewrite PPp, PPq. change (bpow radix2 20) with 1048576. split; [lra|]. split; [lra|].
  unfold reach_sq, rotate. rewrite cos_neg, sin_neg, cos_PI2, sin_PI2. unfold dot, vadd, vscale, cross, e_axis. cbn [vx vy vz]. lra.
Qed.
Example C82_outside_ex : let p0 := V3 0 4 2 in let q0 := V3 3 0 1 in let d := b_ofZ 8 in
  moderate 8 /\ stored 8 (b_vec [0;4;2]%Z) p0 /\ stored 8 (b_vec [3;0;1]%Z) q0 /\ stored_axis (b_axis 2) (e_axis 2) /\ bfin d /\ Rabs (bval d) <= 8 /\
  forall t, reach_sq (e_axis 2) p0 q0 t <= bval d * bval d - bpow radix2 (-40) * (8 * 8).
Proof.
  cbv zeta. assert (V : bval (b_ofZ 8) = 8) by (vm_compute; lra). rewrite V.
  assert (B : bpow radix2 (-40) <= 1 / 1024) by (apply Rle_trans with (bpow radix2 (-10)); [apply bpow_le; lia | cbn; lra]).
  split; [apply int_moderate; lra|]. split; [apply vec_val; [ofz | lra | unfold dot; cbn; lra]|]. split; [apply vec_val; [ofz | lra | unfold dot; cbn; lra]|]. split; [apply e_stored|].
  split; [reflexivity|]. split; [rewrite Rabs_right; lra|]. intros t.
  unfold reach_sq, rotate. unfold dot, vadd, vscale, cross, e_axis. cbn [vx vy vz].
  pose proof (sin2_cos2 t) as SC. unfold Rsqr in SC. pose proof (SIN_bound t). nra.
Qed.
Print Assumptions C82_inside.
Print Assumptions C82_outside.
Print Assumptions C82_residual.
Print Assumptions C82_coordinate_axis.
