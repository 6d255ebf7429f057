(** Proofs about R2rot, q2rot, rpy, screw_matrix. *)
From Coq Require Import Reals ZArith Lra Psatz Nsatz.
From Verif Require Import LinAlg RealAux Py ModelRot SpecRot FactsReal FactsLinAlg FactsRot.
Open Scope R_scope.

(* ---- R2rot ---- *)
Lemma rot_sub_T k t : msub (rot k t) (mT (rot k t)) = mscale (2 * sin t) (hat k).
Proof. rot_ring. Qed.
Lemma frob2_hat s k : frob2 (mscale s (hat k)) = 2 * (s * s) * dot k k.
Proof. rot_ring. Qed.

Lemma R2rot_sin k t : unit3 k -> 0 <= sin t ->
  sqrt (frob2 (msub (rot k t) (mT (rot k t)))) / sqrt 8 = sin t.
Proof.
  intros H Hs. rewrite rot_sub_T, frob2_hat. red in H. rewrite H.
  replace (2 * (2 * sin t * (2 * sin t)) * 1) with (8 * (sin t * sin t)) by ring.
  rewrite sqrt_mult by nra. rewrite sqrt_square by auto.
  assert (0 < sqrt 8) by (apply sqrt_lt_R0; lra). field. lra.
Qed.
Lemma R2rot_cos k t : unit3 k -> (trace (rot k t) - 1) / 2 = cos t.
Proof. intros. rewrite rot_trace by auto. field. Qed.

Lemma sin_nonneg_0_PI t : 0 <= t <= PI -> 0 <= sin t.
Proof. intros. apply sin_ge_0; lra. Qed.

Lemma R2rot_generic k t : unit3 k -> 0 <= t <= PI -> 1 / 1000000 <= sin t ->
  R2rot (rot k t) = Fin (NdArray k, t).
Proof.
  intros Hk Ht Hs. unfold R2rot. rewrite R2rot_sin, R2rot_cos by (auto using sin_nonneg_0_PI).
  rewrite Rltb_ge by auto. do 2 f_equal.
  - f_equal. rewrite rot_sub_T. apply vec3_eq; destruct k; rot_unfold; field; lra.
  - pose proof PI_pos. pose proof (atan2_polar 1 t) as H0. rewrite !Rmult_1_l in H0. apply H0; lra.
Qed.

Lemma R2rot_near_I k t : unit3 k -> 0 <= t <= PI -> sin t < 1 / 1000000 -> 0 < cos t ->
  R2rot (rot k t) = Fin (PyList (V3 0 0 1), 0).
Proof.
  intros Hk Ht Hs Hc. unfold R2rot. rewrite R2rot_sin, R2rot_cos by (auto using sin_nonneg_0_PI).
  rewrite !Rltb_lt by auto. reflexivity.
Qed.

Lemma unit3_abs k : unit3 k -> Rabs (vx k) <= 1 /\ Rabs (vy k) <= 1 /\ Rabs (vz k) <= 1.
Proof.
  intros H. apply norm_unit in H. rewrite <- H.
  split; [apply abs_vx_le_norm|split; [apply abs_vy_le_norm|apply abs_vz_le_norm]].
Qed.

Lemma rot_entry_bound k t : unit3 k -> 0 <= sin t -> 0 <= cos t ->
  mat_close (sin t + sin t * sin t) (rot k t) I3.
Proof.
  intros Hk Hs Hc. pose proof (sin_cos_1 t) as E. pose proof (COS_bound t) as [_ Hc1].
  assert (H1c : 0 <= 1 - cos t <= sin t * sin t) by nra.
  pose proof (unit3_abs k Hk) as (X&Y&Z). red in Hk. unfold dot in Hk.
  apply Rabs_le_iff in X, Y, Z.
  assert (B : forall a b : R, -1 <= a <= 1 -> -1 <= b <= 1 -> Rabs (sin t * a + (1 - cos t) * b) <= sin t + sin t * sin t).
  { intros a b Ha Hb. apply Rabs_le. split; nra. }
  destruct k as [x y z]. la_unfold. unfold rot. rot_unfold. unfold mat_close; simpl.
  repeat split.
  - match goal with |- Rabs ?e <= _ => replace e with (sin t * 0 + (1 - cos t) * (x*x - 1)) by (replace (x*x - 1) with (- (y*y) - z*z) by lra; ring) end. apply B; nra.
  - match goal with |- Rabs ?e <= _ => replace e with (sin t * (-z) + (1 - cos t) * (x*y)) by ring end. apply B; nra.
  - match goal with |- Rabs ?e <= _ => replace e with (sin t * y + (1 - cos t) * (x*z)) by ring end. apply B; nra.
  - match goal with |- Rabs ?e <= _ => replace e with (sin t * z + (1 - cos t) * (x*y)) by ring end. apply B; nra.
  - match goal with |- Rabs ?e <= _ => replace e with (sin t * 0 + (1 - cos t) * (y*y - 1)) by (replace (y*y - 1) with (- (x*x) - z*z) by lra; ring) end. apply B; nra.
  - match goal with |- Rabs ?e <= _ => replace e with (sin t * (-x) + (1 - cos t) * (y*z)) by ring end. apply B; nra.
  - match goal with |- Rabs ?e <= _ => replace e with (sin t * (-y) + (1 - cos t) * (x*z)) by ring end. apply B; nra.
  - match goal with |- Rabs ?e <= _ => replace e with (sin t * x + (1 - cos t) * (y*z)) by ring end. apply B; nra.
  - match goal with |- Rabs ?e <= _ => replace e with (sin t * 0 + (1 - cos t) * (z*z - 1)) by (replace (z*z - 1) with (- (x*x) - y*y) by lra; ring) end. apply B; nra.
Qed.

Lemma mat_close_mono e e' A B : e <= e' -> mat_close e A B -> mat_close e' A B.
Proof. unfold mat_close. intros. decompose [and] H0. repeat split; lra. Qed.

Lemma rot_near_I_close k t : unit3 k -> 0 <= t <= PI -> sin t < 1 / 1000000 -> 0 < cos t ->
  mat_close (2 / 1000000) (rot k t) I3.
Proof.
  intros Hk Ht Hs Hc. pose proof (sin_nonneg_0_PI t Ht).
  apply mat_close_mono with (sin t + sin t * sin t). nra. apply rot_entry_bound; auto; lra.
Qed.

(* half turns *)
Lemma rot_PI_B k : unit3 k ->
  mscale (1/2) (madd (rot k PI) I3) =
  M3 (vx k * vx k) (vx k * vy k) (vx k * vz k)
     (vy k * vx k) (vy k * vy k) (vy k * vz k)
     (vz k * vx k) (vz k * vy k) (vz k * vz k).
Proof.
  intros H. unfold rot. rewrite sin_PI, cos_PI. destruct k as [x y z]. rot_unfold.
  apply mat3_eq; simpl; lra.
Qed.

Lemma sgn_pos x : 0 < x -> sgn x = 1.
Proof. intros. unfold sgn. rewrite Rltb_lt; auto. Qed.
Lemma sgn_neg x : x < 0 -> sgn x = -1.
Proof. intros. unfold sgn. rewrite Rltb_ge, Rltb_lt; auto; lra. Qed.
Lemma sgn_0 : sgn 0 = 0.
Proof. unfold sgn. rewrite !Rltb_ge; lra. Qed.
Lemma sgn_mul_pos x c : 0 < c -> sgn (x / c) = sgn x.
Proof.
  intros. unfold Rdiv. assert (0 < / c) by (apply Rinv_0_lt_compat; auto).
  destruct (Rtotal_order x 0) as [L|[->|L]].
  - rewrite (sgn_neg x), sgn_neg; auto. nra.
  - rewrite Rmult_0_l. reflexivity.
  - rewrite (sgn_pos x), sgn_pos; auto. nra.
Qed.
Lemma abs_sgn_mul x y : x <> 0 -> Rabs y * sgn (x * y) = sgn x * y.
Proof.
  intros Hx. destruct (Rtotal_order y 0) as [L|[->|L]].
  - rewrite Rabs_left by auto. destruct (Rtotal_order x 0) as [K|[K|K]]; try lra.
    + rewrite (sgn_neg x), sgn_pos by nra. ring.
    + rewrite (sgn_pos x), sgn_neg by nra. ring.
  - rewrite Rabs_R0. ring.
  - rewrite Rabs_right by lra. destruct (Rtotal_order x 0) as [K|[K|K]]; try lra.
    + rewrite (sgn_neg x), sgn_neg by nra. ring.
    + rewrite (sgn_pos x), sgn_pos by nra. ring.
Qed.
Lemma sgn_abs x : sgn x * x = Rabs x.
Proof.
  destruct (Rtotal_order x 0) as [L|[->|L]].
  - rewrite sgn_neg, Rabs_left by auto. ring.
  - rewrite sgn_0, Rabs_R0. ring.
  - rewrite sgn_pos, Rabs_right by lra. ring.
Qed.

(** The axis the code returns for a half turn about k. *)
Definition half_turn_axis (k : vec3) : vec3 :=
  if Rltb (1 / 1000000) (Rabs (vx k)) then vscale (sgn (vx k)) k
  else if Rltb (1 / 1000000) (Rabs (vy k)) then V3 (Rabs (vx k)) (Rabs (vy k)) (Rabs (vz k) * sgn (vx k * vz k))
  else V3 (Rabs (vx k)) (Rabs (vy k)) (Rabs (vz k)).

Lemma R2rot_half_turn k : unit3 k -> R2rot (rot k PI) = Fin (NdArray (half_turn_axis k), PI).
Proof.
  intros Hk. pose proof PI_pos. unfold R2rot.
  rewrite R2rot_sin, R2rot_cos by (rewrite ?sin_PI; auto; lra).
  rewrite sin_PI, cos_PI. rewrite Rltb_lt by lra. rewrite (Rltb_ge 0 (-1)) by lra.
  rewrite (rot_PI_B k Hk). simpl m00; simpl m11; simpl m22; simpl m01; simpl m02.
  rewrite !(Rltb_ge (_ * _) 0) by nra. simpl orb. cbv iota.
  assert (S : forall x, sqrt (x * x) = Rabs x) by (intro x; apply (sqrt_Rsqr_abs x)).
  rewrite !S, !Rabs_Rabsolu. unfold half_turn_axis.
  destruct (Rltb (1 / 1000000) (Rabs (vx k))) eqn:C0.
  - apply Rltb_true in C0. do 4 f_equal.
    assert (vx k <> 0). { intros E. rewrite E, Rabs_R0 in C0. lra. }
    destruct k as [x y z]; simpl in *. rewrite !sgn_mul_pos by lra. rewrite !abs_sgn_mul by auto.
    unfold vscale. simpl. rewrite sgn_abs. reflexivity.
  - destruct (Rltb (1 / 1000000) (Rabs (vy k))) eqn:C1; [|reflexivity].
    apply Rltb_true in C1. rewrite sgn_mul_pos by lra. reflexivity.
Qed.

(** Half turns about k and k' agree exactly when k' = k or k' = -k. *)
Lemma half_turn_eq k k' : unit3 k -> (rot k' PI = rot k PI <-> k' = k \/ k' = vneg k).
Proof.
  intros Hk. split.
  - intros E. unfold rot in E. rewrite sin_PI, cos_PI in E.
    destruct k as [x y z], k' as [x' y' z']. rot_unfold. injection E. intros.
    destruct (rank1_pm (Q4 0 x' y' z') (Q4 0 x y z)) as [F|F]; simpl; try lra.
    + injection F; intros; subst; auto.
    + unfold qneg in F; simpl in F. injection F; intros; subst; auto.
  - intros [->| ->]; auto. rewrite rot_neg. apply rot_ang_eq. exists (-1)%Z. lra.
Qed.

(** When the code's half-turn axis is right. *)
Definition half_turn_ok (k : vec3) : Prop :=
  1 / 1000000 < Rabs (vx k)
  \/ (Rabs (vx k) <= 1 / 1000000 /\ 1 / 1000000 < Rabs (vy k) /\
       (0 < vx k * vy k \/ (vz k = 0 /\ 0 <= vx k * vy k)))
  \/ (Rabs (vx k) <= 1 / 1000000 /\ Rabs (vy k) <= 1 / 1000000 /\
       0 <= vx k * vy k /\ 0 <= vx k * vz k /\ 0 <= vy k * vz k).

Lemma abs_prod_eq x y : Rabs x * Rabs y = x * y -> 0 <= x * y.
Proof. intros <-. apply Rmult_le_pos; apply Rabs_pos. Qed.
Lemma prod_abs x y : 0 <= x * y -> Rabs x * Rabs y = x * y.
Proof. intros. rewrite <- Rabs_mult. apply Rabs_right. lra. Qed.
Lemma abs_sq x : Rabs x * Rabs x = x * x.
Proof. rewrite <- Rabs_mult. apply Rabs_right. nra. Qed.

Lemma rank1_pm3 a b :
  vx a * vx a = vx b * vx b -> vy a * vy a = vy b * vy b -> vz a * vz a = vz b * vz b ->
  vx a * vy a = vx b * vy b -> vx a * vz a = vx b * vz b -> vy a * vz a = vy b * vz b ->
  a = b \/ a = vneg b.
Proof.
  intros. destruct a as [x y z], b as [x' y' z']; simpl in *.
  destruct (rank1_pm (Q4 0 x y z) (Q4 0 x' y' z')) as [F|F]; simpl; try lra.
  + injection F; intros; subst; auto.
  + unfold qneg in F; simpl in F. injection F; intros; subst; auto.
Qed.

Lemma sgn_sq x : x <> 0 -> sgn x * sgn x = 1.
Proof. intros. destruct (Rtotal_order x 0) as [L|[L|L]]; try lra. rewrite sgn_neg; auto; ring. rewrite sgn_pos; auto; ring. Qed.

Lemma half_turn_ok_iff k : unit3 k -> (rot (half_turn_axis k) PI = rot k PI <-> half_turn_ok k).
Proof.
  intros Hk. rewrite (half_turn_eq k _ Hk). unfold half_turn_axis, half_turn_ok.
  destruct k as [x y z]; cbn [vx vy vz].
  destruct (Rltb (1 / 1000000) (Rabs x)) eqn:C0.
  - apply Rltb_true in C0. split; auto. intros _.
    assert (x <> 0). { intros E. rewrite E, Rabs_R0 in C0. lra. }
    destruct (Rtotal_order x 0) as [L|[L|L]]; try lra.
    + right. rewrite sgn_neg by auto. rot_ring.
    + left. rewrite sgn_pos by auto. rot_ring.
  - apply Rltb_false in C0. destruct (Rltb (1 / 1000000) (Rabs y)) eqn:C1.
    + apply Rltb_true in C1.
      assert (Hy : y <> 0). { intros E. rewrite E, Rabs_R0 in C1. lra. }
      split.
      * intros E. right; left. repeat split; auto.
        assert (XY : 0 <= x * y).
        { apply abs_prod_eq. destruct E as [E|E]; unfold vneg in E; simpl in E; injection E; intros E1 E2 E3; rewrite E2, E3; ring. }
        assert (ZZ : (Rabs z * sgn (x * z)) * (Rabs z * sgn (x * z)) = z * z).
        { destruct E as [E|E]; unfold vneg in E; simpl in E; injection E; intros E1 E2 E3; rewrite E1; ring. }
        destruct (Req_dec z 0) as [Z|Z]; [right; auto|]. left.
        destruct (Req_dec (x * y) 0) as [W|W]; [|lra].
        exfalso. assert (x = 0) by nra. subst x. rewrite Rmult_0_l, sgn_0 in ZZ. nra.
      * intros [E|[(_&_&E)|(_&E&_)]]; try lra.
        apply rank1_pm3; simpl.
        -- apply abs_sq.
        -- apply abs_sq.
        -- destruct (Req_dec z 0) as [->|Z]. rewrite Rabs_R0; ring.
           destruct E as [E|[E _]]; [|lra]. assert (x <> 0) by (intros ->; lra).
           replace (Rabs z * sgn (x*z) * (Rabs z * sgn (x*z))) with ((Rabs z * Rabs z) * (sgn (x*z) * sgn (x*z))) by ring.
           rewrite abs_sq, sgn_sq. ring. nra.
        -- apply prod_abs. destruct E as [E|[_ E]]; lra.
        -- destruct E as [E|[-> _]].
           ++ assert (x <> 0) by (intros ->; lra). rewrite abs_sgn_mul by auto.
              rewrite <- (sgn_abs x). replace (sgn x * x * (sgn x * z)) with ((sgn x * sgn x) * (x * z)) by ring.
              rewrite sgn_sq by auto. ring.
           ++ rewrite Rabs_R0. ring.
        -- destruct E as [E|[-> _]].
           ++ assert (Hx : x <> 0) by (intros ->; lra). rewrite abs_sgn_mul by auto.
              assert (Rabs y = sgn x * y).
              { destruct (Rtotal_order x 0) as [L|[L|L]]; try lra.
                - rewrite sgn_neg, Rabs_left by nra. ring.
                - rewrite sgn_pos, Rabs_right by nra. ring. }
              rewrite H. replace (sgn x * y * (sgn x * z)) with ((sgn x * sgn x) * (y * z)) by ring.
              rewrite sgn_sq by auto. ring.
           ++ rewrite Rabs_R0. ring.
    + apply Rltb_false in C1. split.
      * intros E. right; right. repeat split; auto; apply abs_prod_eq;
          destruct E as [E|E]; unfold vneg in E; simpl in E; injection E; intros E1 E2 E3; rewrite ?E1, ?E2, ?E3; ring.
      * intros [E|[(_&E&_)|(_&_&E1&E2&E3)]]; try lra.
        apply rank1_pm3; simpl; rewrite ?abs_sq, ?prod_abs; auto.
Qed.

Lemma SO3_diag_bounds A : is_SO3 A -> -1 <= m00 A <= 1 /\ -1 <= m11 A <= 1 /\ -1 <= m22 A <= 1.
Proof.
  intros H. pose proof (SO3_eqs A H) as ((?&?&?)&_). repeat split; nra.
Qed.

(** R2rot never produces NaN on a rotation matrix. *)
Lemma R2rot_total A : is_SO3 A -> exists a t, R2rot A = Fin (a, t).
Proof.
  intros H. unfold R2rot. pose proof (SO3_diag_bounds A H) as (?&?&?).
  match goal with |- exists _ _, (if ?c then _ else _) = _ => destruct c; eauto end.
  destruct (Rltb 0 ((trace A - 1) / 2)); eauto.
  destruct A; la_unfold. simpl in *.
  rewrite !(Rltb_ge _ 0) by lra. simpl.
  destruct (Rltb _ (Rabs (sqrt _))); eauto. destruct (Rltb _ (Rabs (sqrt _))); eauto.
Qed.

(* ---- q2rot ---- *)
Lemma q2rot_ok q : unit4 q -> -1 < q0 q -> 1 / 1000000 <= 2 * acos (q0 q) ->
  exists k, q2rot q = Fin (k, 2 * acos (q0 q)) /\ unit3 k /\ rot k (2 * acos (q0 q)) = q2R q /\
            0 < 2 * acos (q0 q) < 2 * PI.
Proof.
  intros U L T. unfold q2rot.
  assert (B : -1 <= q0 q <= 1) by (destruct q; rot_unfold; nra).
  rewrite !Rltb_ge by lra. simpl.
  pose proof (acos_bound (q0 q)).
  rewrite Rabs_right by lra. rewrite Rltb_ge by lra.
  replace (2 * acos (q0 q) / 2) with (acos (q0 q)) by field.
  assert (LT : acos (q0 q) < PI).
  { destruct (Rle_lt_or_eq_dec (acos (q0 q)) PI) as [|E]; try lra.
    apply (f_equal cos) in E. rewrite cos_acos, cos_PI in E by lra. lra. }
  assert (S : 0 < sin (acos (q0 q))) by (apply sin_gt_0; lra).
  destruct (Reqb (sin (acos (q0 q))) 0) eqn:E; [apply Reqb_true in E; lra|].
  eexists. split; [reflexivity|].
  pose proof (sin_cos_1 (acos (q0 q))) as SC. rewrite cos_acos in SC by lra.
  assert (U3 : unit3 (vdiv (qvec q) (sin (acos (q0 q))))).
  { red. rewrite vdiv_scale, dot_vscale_l, dot_vscale_r.
    assert (D : dot (qvec q) (qvec q) = sin (acos (q0 q)) * sin (acos (q0 q))).
    { destruct q; rot_unfold; lra. }
    rewrite D. field. lra. }
  split; auto. split; [|lra].
  rewrite <- half_q2R by auto. replace (2 * acos (q0 q) / 2) with (acos (q0 q)) by field.
  rewrite cos_acos by lra. f_equal.
  destruct q; rot_unfold. apply quat_eq; simpl; try reflexivity; field; lra.
Qed.

Lemma acos_1 : acos 1 = 0.
Proof. rewrite <- cos_0. apply acos_cos. pose proof PI_pos. lra. Qed.
Lemma acos_m1 : acos (-1) = PI.
Proof. rewrite <- cos_PI. apply acos_cos. pose proof PI_pos. lra. Qed.

Lemma sin_le_x x : 0 <= x -> sin x <= x.
Proof. intros. destruct (Req_dec x 0) as [->|]. rewrite sin_0. lra. left. apply sin_lt_x. lra. Qed.

Lemma q2rot_near q : unit4 q -> 2 * acos (q0 q) < 1 / 1000000 ->
  q2rot q = Fin (V3 0 0 1, 0) /\ mat_close (2 / 1000000) (q2R q) I3.
Proof.
  intros U T.
  assert (B : -1 <= q0 q <= 1) by (destruct q; rot_unfold; nra).
  pose proof (acos_bound (q0 q)). split.
  - unfold q2rot. rewrite !Rltb_ge by lra. simpl. rewrite Rabs_right by lra. rewrite Rltb_lt by lra. reflexivity.
  - destruct (Req_dec (acos (q0 q)) 0) as [Z|Z].
    + apply (f_equal cos) in Z. rewrite cos_acos, cos_0 in Z by lra.
      assert (q = qone). { destruct q; rot_unfold; subst. apply quat_eq; simpl; nra. }
      subst. rewrite q2R_one. unfold mat_close. simpl. rewrite !Rminus_diag_eq, Rabs_R0 by reflexivity. repeat split; lra.
    + assert (S : 0 < sin (acos (q0 q))). { apply sin_gt_0. lra. pose proof PI_lower. lra. }
      pose proof (sin_cos_1 (acos (q0 q))) as SC. rewrite cos_acos in SC by lra.
      set (k := vdiv (qvec q) (sin (acos (q0 q)))).
      assert (U3 : unit3 k).
      { red. unfold k. rewrite vdiv_scale, dot_vscale_l, dot_vscale_r.
        assert (D : dot (qvec q) (qvec q) = sin (acos (q0 q)) * sin (acos (q0 q))).
        { destruct q; rot_unfold; lra. }
        rewrite D. field. lra. }
      assert (E : q2R q = rot k (2 * acos (q0 q))).
      { rewrite <- half_q2R by auto. replace (2 * acos (q0 q) / 2) with (acos (q0 q)) by field.
        rewrite cos_acos by lra. f_equal. unfold k. destruct q; rot_unfold. apply quat_eq; simpl; try reflexivity; field; lra. }
      rewrite E. pose proof PI_lower. apply rot_near_I_close; auto. lra.
      * pose proof (sin_lt_x (2 * acos (q0 q))). lra.
      * apply cos_gt_0; lra.
Qed.

Lemma q2rot_minus_one : q2rot (Q4 (-1) 0 0 0) = NaN.
Proof.
  unfold q2rot. simpl q0. rewrite !Rltb_ge by lra. simpl orb. cbv iota zeta. rewrite acos_m1.
  pose proof PI_lower. rewrite Rabs_right by lra. rewrite Rltb_ge by lra.
  replace (2 * PI / 2) with PI by field. rewrite sin_PI, Reqb_refl. reflexivity.
Qed.

(* ---- rpy ---- *)
Lemma rot_ez y : rot (V3 0 0 1) y = Rz y.
Proof. unfold Rz. rot_ring. Qed.
Lemma rot_ey p : rot (V3 0 1 0) p = Ry p.
Proof. unfold Ry. rot_ring. Qed.
Lemma rot_ex r : rot (V3 1 0 0) r = Rx r.
Proof. unfold Rx. rot_ring. Qed.
Lemma rpy2R_spec r p y : rpy2R r p y = mmul (mmul (Rz y) (Ry p)) (Rx r).
Proof. unfold rpy2R. rewrite rot_ex, rot_ey, rot_ez. reflexivity. Qed.
Lemma rpy2R_SO3 r p y : is_SO3 (rpy2R r p y).
Proof. unfold rpy2R. repeat apply SO3_mmul; apply rot_SO3; red; rot_unfold; ring. Qed.
Lemma rpy2R_entries r p y :
  rpy2R r p y =
  M3 (cos y * cos p) (cos y * sin p * sin r - sin y * cos r) (cos y * sin p * cos r + sin y * sin r)
     (sin y * cos p) (sin y * sin p * sin r + cos y * cos r) (sin y * sin p * cos r - cos y * sin r)
     (- sin p) (cos p * sin r) (cos p * cos r).
Proof. rewrite rpy2R_spec. unfold Rx, Ry, Rz. rot_ring. Qed.

Lemma R2rpy_rpy2R r p y :
  - PI < r <= PI -> - PI < y <= PI -> - (PI/2) < p < PI/2 -> eps * 10 < cos p ->
  R2rpy (rpy2R r p y) = Ok (r, p, y).
Proof.
  intros Hr Hy Hp Hc. pose proof eps_pos. unfold R2rpy. rewrite rpy2R_entries. cbn [m00 m10 m20 m21 m22].
  assert (E1 : sqrt (cos y * cos p * (cos y * cos p) + sin y * cos p * (sin y * cos p)) = cos p).
  { replace (cos y * cos p * (cos y * cos p) + sin y * cos p * (sin y * cos p))
      with (cos p * cos p * (sin y * sin y + cos y * cos y)) by ring.
    rewrite sin_cos_1, Rmult_1_r. apply sqrt_square. lra. }
  assert (E2 : sqrt (cos p * sin r * (cos p * sin r) + cos p * cos r * (cos p * cos r)) = cos p).
  { replace (cos p * sin r * (cos p * sin r) + cos p * cos r * (cos p * cos r))
      with (cos p * cos p * (sin r * sin r + cos r * cos r)) by ring.
    rewrite sin_cos_1, Rmult_1_r. apply sqrt_square. lra. }
  rewrite E1, E2. rewrite Rltb_lt by lra. simpl bind. cbv iota.
  do 2 f_equal. f_equal.
  - apply atan2_polar; lra.
  - rewrite Ropp_involutive. pose proof (atan2_polar 1 p). rewrite !Rmult_1_l in H0. apply H0; lra.
  - rewrite (Rmult_comm (sin y)), (Rmult_comm (cos y)). apply atan2_polar; lra.
Qed.

Lemma R2rpy_guard A : R2rpy A = Err AssertionError <-> sqrt (m00 A * m00 A + m10 A * m10 A) <= eps * 10.
Proof.
  unfold R2rpy, assert_. destruct (Rltb (eps * 10) _) eqn:C; simpl.
  - apply Rltb_true in C. split; intros; try discriminate; lra.
  - apply Rltb_false in C. split; auto.
Qed.

Lemma atan2_cos_nonneg s c : 0 <= c -> 0 <= cos (atan2 s c).
Proof.
  intros. pose proof (atan2_cos s c).
  destruct (Req_dec (s*s+c*c) 0) as [Z|Z].
  - apply sqr_sum_zero in Z as [-> ->]. rewrite atan2_zero, cos_0. lra.
  - assert (0 < sqrt (c*c+s*s)) by (apply sqrt_lt_R0; nra). nra.
Qed.

Lemma rpy2R_R2rpy A r p y : is_SO3 A -> R2rpy A = Ok (r, p, y) ->
  rpy2R r p y = A /\ - (PI/2) < p < PI/2 /\ - PI < r <= PI /\ - PI < y <= PI.
Proof.
  intros H E. unfold R2rpy, assert_ in E.
  destruct (Rltb (eps * 10) _) eqn:C; simpl in E; [|discriminate]. apply Rltb_true in C.
  injection E; intros <- <- <-. clear E. pose proof eps_pos.
  pose proof (SO3_eqs A H) as ((C0&C1&C2)&(R0&R1&R2)&(O01&O02&O12)&(P01&P02&P12)).
  pose proof (SO3_cof A H) as (F00&F10&F20&F01&F11&F21&F02&F12&F22).
  set (cp := sqrt (m00 A * m00 A + m10 A * m10 A)) in *.
  assert (Hcp : cp * cp = m00 A * m00 A + m10 A * m10 A) by (unfold cp; apply sqrt_sqrt; nra).
  assert (Ecp : sqrt (m21 A * m21 A + m22 A * m22 A) = cp) by (unfold cp; f_equal; lra).
  rewrite Ecp.
  set (rr := atan2 (m21 A) (m22 A)). set (yy := atan2 (m10 A) (m00 A)). set (pp := atan2 (- m20 A) cp).
  assert (Hr : cp * cos rr = m22 A /\ cp * sin rr = m21 A).
  { pose proof (atan2_cos (m21 A) (m22 A)). pose proof (atan2_sin (m21 A) (m22 A)).
    rewrite (Rplus_comm (m22 A * m22 A)), Ecp in *. auto. }
  assert (Hy : cp * cos yy = m00 A /\ cp * sin yy = m10 A).
  { pose proof (atan2_cos (m10 A) (m00 A)). pose proof (atan2_sin (m10 A) (m00 A)). auto. }
  assert (Hp : cos pp = cp /\ sin pp = - m20 A).
  { apply atan2_unit. rewrite Hcp. lra. }
  destruct Hr as [Hcr Hsr], Hy as [Hcy Hsy], Hp as [Hcpp Hspp].
  assert (cp > 0) by lra.
  split.
  - rewrite rpy2R_entries, Hcpp, Hspp.
    assert (Q21 : m20 A * m21 A = - (m00 A * m01 A + m10 A * m11 A)) by lra.
    assert (Q22 : m20 A * m22 A = - (m00 A * m02 A + m10 A * m12 A)) by lra.
    assert (Q : forall u v, cp * cp * u = cp * cp * v -> u = v).
    { intros u v E. apply Rmult_eq_reg_l with (cp * cp); auto. nra. }
    apply mat3_eq; simpl; try lra; apply Q.
    + transitivity ((cp * cos yy) * (- m20 A) * (cp * sin rr) - (cp * sin yy) * (cp * cos rr)); [ring|].
      rewrite Hcr, Hsr, Hcy, Hsy, Hcp. transitivity (- m00 A * (m20 A * m21 A) - m10 A * m22 A); [ring|]. rewrite Q21. replace (m10 A * m22 A) with (m10 A * (m00 A * m11 A - m01 A * m10 A)) by (rewrite <- F22; ring). ring.
    + transitivity ((cp * cos yy) * (- m20 A) * (cp * cos rr) + (cp * sin yy) * (cp * sin rr)); [ring|].
      rewrite Hcr, Hsr, Hcy, Hsy, Hcp. transitivity (- m00 A * (m20 A * m22 A) + m10 A * m21 A); [ring|]. rewrite Q22. replace (m10 A * m21 A) with (m10 A * (m02 A * m10 A - m00 A * m12 A)) by (rewrite <- F21; ring). ring.
    + transitivity ((cp * sin yy) * (- m20 A) * (cp * sin rr) + (cp * cos yy) * (cp * cos rr)); [ring|].
      rewrite Hcr, Hsr, Hcy, Hsy, Hcp. transitivity (- m10 A * (m20 A * m21 A) + m00 A * m22 A); [ring|]. rewrite Q21. replace (m00 A * m22 A) with (m00 A * (m00 A * m11 A - m01 A * m10 A)) by (rewrite <- F22; ring). ring.
    + transitivity ((cp * sin yy) * (- m20 A) * (cp * cos rr) - (cp * cos yy) * (cp * sin rr)); [ring|].
      rewrite Hcr, Hsr, Hcy, Hsy, Hcp. transitivity (- m10 A * (m20 A * m22 A) - m00 A * m21 A); [ring|]. rewrite Q22. replace (m00 A * m21 A) with (m00 A * (m02 A * m10 A - m00 A * m12 A)) by (rewrite <- F21; ring). ring.
  - split; [|split; apply atan2_range].
    pose proof (atan2_range (- m20 A) cp) as Rg. fold pp in Rg. pose proof PI_pos.
    destruct (Rle_dec pp (- (PI/2))).
    + exfalso. assert (cos pp <= 0). { rewrite <- (cos_neg pp). apply cos_le_0; lra. } lra.
    + destruct (Rle_dec (PI/2) pp).
      * exfalso. assert (cos pp <= 0) by (apply cos_le_0; lra). lra.
      * lra.
Qed.

(* ---- screw_matrix ---- *)
Lemma mat6_eq A B : b00 A = b00 B -> b01 A = b01 B -> b10 A = b10 B -> b11 A = b11 B -> A = B.
Proof. destruct A, B; simpl; intros; subst; reflexivity. Qed.
Lemma screw_0 : screw_matrix vzero = I6.
Proof. apply mat6_eq; simpl; rot_ring. Qed.
Lemma screw_add a b : m6mul (screw_matrix a) (screw_matrix b) = screw_matrix (vadd a b).
Proof. apply mat6_eq; simpl; rot_ring. Qed.
Lemma screw_power r t w : dot6 (m6vec (m6T (screw_matrix r)) t) w = dot6 t (m6vec (screw_matrix r) w).
Proof. destruct t as [ta tb], w as [wa wb]. unfold dot6, m6vec, m6T, screw_matrix. cbn [hi3 lo3 b00 b01 b10 b11]. rot_ring. Qed.
Lemma screw_twist r w v : m6vec (m6T (screw_matrix r)) (V6 w v) = V6 w (vadd v (cross w r)).
Proof. unfold m6vec, m6T, screw_matrix. cbn [hi3 lo3 b00 b01 b10 b11]. f_equal; rot_ring. Qed.
Lemma screw_wrench r t f : m6vec (screw_matrix r) (V6 t f) = V6 (vadd t (cross r f)) f.
Proof. unfold m6vec, m6T, screw_matrix. cbn [hi3 lo3 b00 b01 b10 b11]. f_equal; rot_ring. Qed.
