(** Second-order bounds for the motion of the tool. *)
From Coq Require Import Reals ZArith List Bool Lra Lia Psatz.
From Verif Require Import LinAlg RealAux Py FactsReal FactsLinAlg ModelRot SpecRot FactsRot FactsRot2 ModelTransform ModelRobot ModelKin SpecKin FactsKin FactsJac FactsNorm PropKin
  SpecMove PropMove SpecConverge.
Import ListNotations.
Open Scope R_scope.

Lemma arc_taylor d : (sin d - d) * (sin d - d) + (1 - cos d) * (1 - cos d) <= d * d / 2 * (d * d / 2).
Proof.
  assert (G : forall x, 0 <= x -> (sin x - x) * (sin x - x) + (1 - cos x) * (1 - cos x) <= x * x / 2 * (x * x / 2)).
  { intros x [Hx | <-].
    2:{ rewrite sin_0, cos_0. lra. }
    set (g := fun y => y * y * (y * y) / 4 - y * y + 2 * (y * sin y) - 2 + 2 * cos y).
    assert (D : forall y, derivable_pt_lim g y (y * y * y - 2 * y * (1 - cos y))).
    { intros y. unfold g.
      assert (D2 : derivable_pt_lim (fun z => z * z) y (2 * y)).
      { replace (2 * y) with (1 * y + y * 1) by ring. apply (derivable_pt_lim_mult id id); apply derivable_pt_lim_id. }
      assert (D4 : derivable_pt_lim (fun z => z * z * (z * z)) y (4 * (y * y * y))).
      { replace (4 * (y * y * y)) with (2 * y * (y * y) + y * y * (2 * y)) by ring. apply (derivable_pt_lim_mult (fun z => z * z) (fun z => z * z)); exact D2. }
      assert (DS : derivable_pt_lim (fun z => z * sin z) y (sin y + y * cos y)).
      { replace (sin y + y * cos y) with (1 * sin y + y * cos y) by ring. apply (derivable_pt_lim_mult id sin); [apply derivable_pt_lim_id | apply derivable_pt_lim_sin]. }
      replace (y * y * y - 2 * y * (1 - cos y)) with (4 * (y * y * y) * / 4 - 2 * y + 2 * (sin y + y * cos y) - 0 + 2 * (- sin y)) by field.
      apply (derivable_pt_lim_plus (fun z => z * z * (z * z) / 4 - z * z + 2 * (z * sin z) - 2) (fun z => 2 * cos z)).
      2: apply (derivable_pt_lim_scal cos); apply derivable_pt_lim_cos.
      apply (derivable_pt_lim_minus (fun z => z * z * (z * z) / 4 - z * z + 2 * (z * sin z)) (fun z => 2)).
      2: apply derivable_pt_lim_const.
      apply (derivable_pt_lim_plus (fun z => z * z * (z * z) / 4 - z * z) (fun z => 2 * (z * sin z))).
      2: apply (derivable_pt_lim_scal (fun z => z * sin z)); exact DS.
      apply (derivable_pt_lim_minus (fun z => z * z * (z * z) / 4) (fun z => z * z)); [|exact D2].
      unfold Rdiv. replace (4 * (y * y * y) * / 4) with (4 * (y * y * y) * / 4 + y * y * (y * y) * 0) by ring.
      apply (derivable_pt_lim_mult (fun z => z * z * (z * z)) (fun _ => / 4)); [exact D4 | apply derivable_pt_lim_const]. }
    destruct (MVT_cor2 g (fun y => y * y * y - 2 * y * (1 - cos y)) 0 x Hx (fun c _ => D c)) as (c & E & C).
    assert (G0 : g 0 = 0) by (unfold g; rewrite sin_0, cos_0; field).
    pose proof (one_minus_cos c) as OC.
    assert (0 <= c * c * c - 2 * c * (1 - cos c)). { replace (c * c * c - 2 * c * (1 - cos c)) with (c * (c * c - 2 * (1 - cos c))) by ring. apply Rmult_le_pos; lra. }
    assert (0 <= g x). { rewrite G0 in E. assert (0 <= (c * c * c - 2 * c * (1 - cos c)) * (x - 0)) by (apply Rmult_le_pos; lra). lra. }
    unfold g in *. pose proof (sin2_cos2 x) as SC. unfold Rsqr in SC. lra. }
  destruct (Rle_dec 0 d) as [P | P]; [apply G; exact P|].
  pose proof (G (- d) ltac:(lra)) as Q. rewrite sin_neg, cos_neg in Q. lra.
Qed.
Lemma turn_taylor k d v : unit3 k -> norm (vsub (vsub (rotate k d v) v) (vscale d (cross k v))) <= d * d / 2 * norm v.
Proof.
  intros U. rewrite <- rot_rotate by auto. apply norm_le_sq; [apply Rmult_le_pos; [nra | apply norm_nonneg]|].
  replace (d * d / 2 * norm v * (d * d / 2 * norm v)) with (d * d / 2 * (d * d / 2) * (norm v * norm v)) by ring. rewrite norm_sq.
  rewrite mvec_rot. set (s := sin d). set (c := cos d).
  assert (E : dot (vsub (vsub (vadd (vadd v (vscale s (cross k v))) (vscale (1 - c) (cross k (cross k v)))) v) (vscale d (cross k v)))
                  (vsub (vsub (vadd (vadd v (vscale s (cross k v))) (vscale (1 - c) (cross k (cross k v)))) v) (vscale d (cross k v)))
            = ((s - d) * (s - d) + (1 - c) * (1 - c) * dot k k) * (dot k k * dot v v - dot k v * dot k v)) by la_ring.
  rewrite E. unfold unit3 in U. rewrite U.
  assert (V : 0 <= 1 * dot v v - dot k v * dot k v).
  { assert (V2 : 0 <= dot (cross k v) (cross k v)) by (unfold dot; nra).
    replace (dot (cross k v) (cross k v)) with (dot k k * dot v v - dot k v * dot k v) in V2 by la_ring. rewrite U in V2. exact V2. }
  pose proof (arc_taylor d) as AT. fold s in AT. fold c in AT.
  pose proof (Rle_0_sqr (s - d)) as Q1. pose proof (Rle_0_sqr (1 - c)) as Q2. pose proof (Rle_0_sqr (dot k v)) as Q3. unfold Rsqr in *.
  apply Rmult_le_compat; [lra | exact V | lra | lra].
Qed.

(* ---- sums of absolute values ---- *)
Lemma l1_nonneg d : 0 <= l1 d.
Proof. induction d as [|x d IH]; cbn [l1 fold_right]; [lra|]. fold (l1 d). pose proof (Rabs_pos x). lra. Qed.
Lemma l1_cons x d : l1 (x :: d) = Rabs x + l1 d.
Proof. reflexivity. Qed.
Lemma norm_cross a v : norm (cross a v) <= norm a * norm v.
Proof.
  apply norm_le_sq; [apply Rmult_le_pos; apply norm_nonneg|].
  replace (norm a * norm v * (norm a * norm v)) with ((norm a * norm a) * (norm v * norm v)) by ring. rewrite !norm_sq.
  replace (dot (cross a v) (cross a v)) with (dot a a * dot v v - dot a v * dot a v) by la_ring. nra.
Qed.

(** speeds *)
Lemma jloc_speed ty : forall H P theta x d M, Forall plain_type ty -> Forall unit3 H -> length H = length ty -> length P = length ty -> length theta = length ty -> length d = length ty ->
  1 <= M -> arm_length ty P theta (norm x) <= M ->
  norm (hi3 (jac_apply (jloc ty H P theta x) d)) <= l1 d /\ norm (lo3 (jac_apply (jloc ty H P theta x) d)) <= M * l1 d.
Proof.
  induction ty as [|j ty IH]; intros H P theta x d M PT U LH LP LT LD M1 MA.
  { cbn [jloc]. replace (jac_apply [] d) with (V6 vzero vzero) by (destruct d; reflexivity). cbn [hi3 lo3]. pose proof (l1_nonneg d). rewrite norm_vzero. nra. }
  destruct H as [|h H]; [discriminate|]. destruct P as [|p P]; [discriminate|]. destruct theta as [|t theta]; [discriminate|]. destruct d as [|e d]; [discriminate|].
  injection LH as LH. injection LP as LP. injection LT as LT. injection LD as LD. inversion_clear PT. inversion_clear U. cbn [arm_length] in MA.
  pose proof (norm_nonneg p) as N0. pose proof (Rabs_pos t) as T0. pose proof (Rabs_pos e) as E0. rewrite l1_cons.
  assert (MA' : norm p + arm_length ty P theta (norm x) <= M) by (destruct (turning j); lra).
  destruct (IH H P theta x d M H1 H3 LH LP LT LD M1 ltac:(lra)) as [B1 B2]. pose proof (chain_length ty H P theta x H3 LH) as CL.
  set (w := jac_apply (jloc ty H P theta x) d) in *. cbn [jloc].
  assert (TR : forall a b, norm (vadd a b) <= norm a + norm b) by (intros; apply norm_triangle).
  destruct H0 as [-> | ->]; cbn [jac_apply hi3 lo3].
  - rewrite jac_apply_rotcol. fold w. cbn [rotcol hi3 lo3]. split.
    + eapply Rle_trans; [apply TR|]. rewrite norm_vscale, (norm_unit h H2), norm_SO3 by (apply rot_SO3; exact H2). lra.
    + eapply Rle_trans; [apply TR|]. rewrite norm_vscale, norm_SO3 by (apply rot_SO3; exact H2). pose proof (norm_cross h (mvec (rot h t) (vadd p (chain ty H P theta x)))) as NC.
      rewrite (norm_unit h H2), norm_SO3 in NC by (apply rot_SO3; exact H2). pose proof (TR p (chain ty H P theta x)).
      assert (Rabs e * norm (cross h (mvec (rot h t) (vadd p (chain ty H P theta x)))) <= Rabs e * M) by (apply Rmult_le_compat_l; lra). lra.
  - fold w. split.
    + eapply Rle_trans; [apply TR|]. rewrite norm_vscale, norm_vzero. lra.
    + eapply Rle_trans; [apply TR|]. rewrite norm_vscale, (norm_unit h H2). nra.
Qed.

(** the motion of a chain, to second order *)
Lemma chain_taylor ty : forall H P theta x d M, Forall plain_type ty -> Forall unit3 H -> length H = length ty -> length P = length ty -> length theta = length ty -> length d = length ty ->
  1 <= M -> arm_length ty P theta (norm x) <= M ->
  let w := jac_apply (jloc ty H P theta x) d in
  norm (vsub (vsub (chain ty H P (moved theta d) x) (chain ty H P theta x)) (lo3 w)) <= M * (l1 d * l1 d / 2) /\
  forall v, norm (vsub (vsub (mvec (cR ty H P (moved theta d)) v) (mvec (cR ty H P theta) v)) (cross (hi3 w) (mvec (cR ty H P theta) v))) <= l1 d * l1 d / 2 * norm v.
Proof.
  induction ty as [|j ty IH]; intros H P theta x d M PT U LH LP LT LD M1 MA; cbv zeta.
  { cbn [chain jloc cR]. replace (jac_apply [] d) with (V6 vzero vzero) by (destruct d; reflexivity). cbn [hi3 lo3]. pose proof (l1_nonneg d) as L0.
    split; [|intros v].
    - replace (vsub (vsub x x) vzero) with vzero by la_ring. rewrite norm_vzero. apply Rmult_le_pos; [lra | nra].
    - replace (vsub (vsub (mvec I3 v) (mvec I3 v)) (cross vzero (mvec I3 v))) with vzero by la_ring. rewrite norm_vzero. apply Rmult_le_pos; [nra | apply norm_nonneg]. }
  destruct H as [|h H]; [discriminate|]. destruct P as [|p P]; [discriminate|]. destruct theta as [|t theta]; [discriminate|]. destruct d as [|e d]; [discriminate|].
  injection LH as LH. injection LP as LP. injection LT as LT. injection LD as LD. inversion_clear PT. inversion_clear U. cbn [arm_length] in MA.
  pose proof (norm_nonneg p) as N0. pose proof (Rabs_pos t) as T0. pose proof (Rabs_pos e) as E0. rewrite l1_cons.
  assert (MA' : norm p + arm_length ty P theta (norm x) <= M) by (destruct (turning j); lra).
  destruct (IH H P theta x d M H1 H3 LH LP LT LD M1 ltac:(lra)) as [B1 B2]. pose proof (chain_length ty H P theta x H3 LH) as CL.
  destruct (jloc_speed ty H P theta x d M H1 H3 LH LP LT LD M1 ltac:(lra)) as [S1 S2].
  set (w := jac_apply (jloc ty H P theta x) d) in *. cbn [jloc].
  change (moved (t :: theta) (e :: d)) with (t + e :: moved theta d). cbn [chain cR joint_motion].
  set (c' := chain ty H P (moved theta d) x) in *. set (c := chain ty H P theta x) in *. set (Q' := cR ty H P (moved theta d)) in *. set (Q := cR ty H P theta) in *.
  assert (SQ : is_SO3 Q) by (apply cR_SO3; exact H3).
  pose proof (l1_nonneg d) as L0. set (D := l1 d) in *.
  assert (EE : Rabs e * Rabs e = e * e) by (rewrite <- Rabs_mult; apply Rabs_right; nra).
  assert (SP : (Rabs e + D) * (Rabs e + D) / 2 = D * D / 2 + e * e / 2 + Rabs e * D) by (rewrite <- EE; field).
  destruct H0 as [-> | ->]; cbn [joint_motion jac_apply hi3 lo3].
  - rewrite jac_apply_rotcol. fold w. cbn [rotcol hi3 lo3]. pose proof (rot_SO3 h t H2) as SR. set (A := rot h t) in *.
    assert (RA : forall y, rotate h t y = mvec A y) by (intros y; symmetry; apply rot_rotate; exact H2).
    assert (RE : forall y, rotate h (t + e) y = mvec A (rotate h e y)).
    { intros y. rewrite <- !rot_rotate by exact H2. rewrite <- rot_add, mvec_mmul by exact H2. reflexivity. }
    assert (AX : mvec A h = h) by (apply rot_axis).
    split.
    + rewrite RE, RA. set (y := vadd p c). set (y' := vadd p c').
      replace (vsub (vsub (mvec A (rotate h e y')) (mvec A y)) (vadd (vscale e (cross h (mvec A y))) (mvec A (lo3 w))))
        with (mvec A (vsub (vsub (rotate h e y') y) (vadd (vscale e (cross h y)) (lo3 w)))).
      2:{ rewrite !mvec_vsub, mvec_vadd, mvec_vscale, SO3_cross, AX by exact SR. reflexivity. }
      rewrite norm_SO3 by exact SR.
      replace (vsub (vsub (rotate h e y') y) (vadd (vscale e (cross h y)) (lo3 w)))
        with (vadd (vadd (vsub (rotate h e y') (rotate h e (vadd y (lo3 w)))) (vsub (vsub (rotate h e y) y) (vscale e (cross h y)))) (vsub (rotate h e (lo3 w)) (lo3 w))).
      2:{ rewrite <- !rot_rotate by exact H2. generalize (rot h e) (lo3 w) (cross h y) y y'. la_ring. }
      pose proof (norm_triangle (vadd (vsub (rotate h e y') (rotate h e (vadd y (lo3 w)))) (vsub (vsub (rotate h e y) y) (vscale e (cross h y)))) (vsub (rotate h e (lo3 w)) (lo3 w))) as T1.
      pose proof (norm_triangle (vsub (rotate h e y') (rotate h e (vadd y (lo3 w)))) (vsub (vsub (rotate h e y) y) (vscale e (cross h y)))) as T2.
      rewrite rotate_sub in T2 by exact H2.
      replace (vsub y' (vadd y (lo3 w))) with (vsub (vsub c' c) (lo3 w)) in T2 by (unfold y, y'; generalize (lo3 w); la_ring).
      pose proof (turn_taylor h e y H2) as TT. pose proof (turn_moves h e (lo3 w) H2) as TM. pose proof (norm_triangle p c) as T3. fold y in T3.
      assert (e * e / 2 * norm y <= e * e / 2 * M) by (apply Rmult_le_compat_l; [nra | lra]).
      assert (Rabs e * norm (lo3 w) <= Rabs e * (M * D)) by (apply Rmult_le_compat_l; lra).
      rewrite SP. lra.
    + intros v. rewrite !mvec_mmul. set (u := mvec Q v). set (u' := mvec Q' v). fold A.
      assert (NU : norm u = norm v) by (apply norm_SO3; exact SQ).
      assert (RM : mvec (rot h (t + e)) u' = mvec A (rotate h e u')) by (rewrite <- RE, rot_rotate by exact H2; reflexivity). rewrite RM.
      replace (vsub (vsub (mvec A (rotate h e u')) (mvec A u)) (cross (vadd (vscale e h) (mvec A (hi3 w))) (mvec A u)))
        with (mvec A (vsub (vsub (rotate h e u') u) (cross (vadd (vscale e h) (hi3 w)) u))).
      2:{ rewrite !mvec_vsub, SO3_cross, mvec_vadd, mvec_vscale, AX by exact SR. reflexivity. }
      rewrite norm_SO3 by exact SR.
      replace (vsub (vsub (rotate h e u') u) (cross (vadd (vscale e h) (hi3 w)) u))
        with (vadd (vadd (vsub (rotate h e u') (rotate h e (vadd u (cross (hi3 w) u)))) (vsub (vsub (rotate h e u) u) (vscale e (cross h u)))) (vsub (rotate h e (cross (hi3 w) u)) (cross (hi3 w) u))).
      2:{ rewrite <- !rot_rotate by exact H2. generalize (rot h e) (hi3 w) u u'. la_ring. }
      pose proof (norm_triangle (vadd (vsub (rotate h e u') (rotate h e (vadd u (cross (hi3 w) u)))) (vsub (vsub (rotate h e u) u) (vscale e (cross h u)))) (vsub (rotate h e (cross (hi3 w) u)) (cross (hi3 w) u))) as T1.
      pose proof (norm_triangle (vsub (rotate h e u') (rotate h e (vadd u (cross (hi3 w) u)))) (vsub (vsub (rotate h e u) u) (vscale e (cross h u)))) as T2.
      rewrite rotate_sub in T2 by exact H2.
      replace (vsub u' (vadd u (cross (hi3 w) u))) with (vsub (vsub u' u) (cross (hi3 w) u)) in T2 by (generalize (cross (hi3 w) u); la_ring).
      pose proof (turn_taylor h e u H2) as TT. pose proof (turn_moves h e (cross (hi3 w) u) H2) as TM. pose proof (norm_cross (hi3 w) u) as NC. specialize (B2 v). fold u in B2. fold u' in B2.
      rewrite NU in *. pose proof (norm_nonneg v) as NV.
      assert (norm (hi3 w) * norm v <= D * norm v) by (apply Rmult_le_compat_r; lra).
      assert (Rabs e * norm (cross (hi3 w) u) <= Rabs e * (D * norm v)) by (apply Rmult_le_compat_l; lra).
      rewrite SP. lra.
  - fold w. assert (W : D * D / 2 <= (Rabs e + D) * (Rabs e + D) / 2) by (rewrite SP; nra).
    split.
    + replace (vsub (vsub (vadd (vscale (t + e) h) (vadd p c')) (vadd (vscale t h) (vadd p c))) (vadd (vscale e h) (lo3 w))) with (vsub (vsub c' c) (lo3 w)) by (generalize (lo3 w); la_ring).
      eapply Rle_trans; [exact B1|]. apply Rmult_le_compat_l; lra.
    + intros v. replace (vadd (vscale e vzero) (hi3 w)) with (hi3 w) by (generalize (hi3 w); la_ring). eapply Rle_trans; [apply B2|]. apply Rmult_le_compat_r; [apply norm_nonneg | exact W].
Qed.
