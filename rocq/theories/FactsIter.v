(** Facts about iterative_invkin. *)
From Coq Require Import Reals ZArith List Bool Lia Lra Psatz.
From Verif Require Import LinAlg RealAux Py FactsReal FactsLinAlg ModelRot SpecRot FactsRot FactsRot2 ModelTransform ModelRobot ModelKin SpecKin FactsKin FactsJac
  ModelInvkin SpecInvkin FactsInvkin SpecEquiv.
Import ListNotations.
Open Scope R_scope.

(** *** How far the measured rotation error can be from the real one *)
Definition eps6 : R := 1 / 1000000.
Lemma all_below_small e v : all_below e v = true <-> small e v.
Proof. unfold all_below, small. rewrite !andb_true_iff, !Rltb_true. tauto. Qed.
Lemma sin_half_near t : 0 <= t <= PI -> sin t < eps6 -> 0 < cos t -> 0 <= sin (t / 2) < eps6.
Proof.
  intros B S C. pose proof PI_pos as PP. assert (S0 : 0 <= sin (t / 2)) by (apply sin_ge_0; lra). split; auto.
  assert (C0 : 0 <= cos (t / 2)) by (apply cos_ge_0; lra).
  assert (E : sin t = 2 * sin (t / 2) * cos (t / 2)) by (rewrite <- sin_2a; f_equal; field).
  assert (F : cos t = 1 - 2 * sin (t / 2) * sin (t / 2)) by (rewrite <- cos_2a_sin; f_equal; field).
  pose proof (sin2_cos2 (t / 2)) as P. unfold Rsqr in P.
  set (a := sin (t / 2)) in *. set (c := cos (t / 2)) in *.
  assert (1 / 2 <= c) by nra. unfold eps6 in *. nra.
Qed.
Lemma unit_coords k : unit3 k -> Rabs (vx k) <= 1 /\ Rabs (vy k) <= 1 /\ Rabs (vz k) <= 1.
Proof.
  unfold unit3, dot. intros U. assert (forall x, x * x <= 1 -> Rabs x <= 1).
  { intros x X. apply Rabs_le. nra. }
  repeat split; apply H; nra.
Qed.
Lemma small_scale e c k : 0 <= c < e -> unit3 k -> small e (vscale c k).
Proof.
  intros C U. pose proof (unit_coords k U) as (A & B & D). unfold small, vscale; cbn [vx vy vz].
  rewrite !Rabs_mult, (Rabs_right c) by lra. pose proof (Rabs_pos (vx k)). pose proof (Rabs_pos (vy k)). pose proof (Rabs_pos (vz k)).
  repeat split; nra.
Qed.
Lemma small_le a b v : a <= b -> small a v -> small b v.
Proof. unfold small. lra. Qed.
Lemma sgn_zero_small tol k m : tol <= k -> Rabs (k * sgn m) < tol -> m = 0.
Proof.
  intros K S. destruct (Rtotal_order m 0) as [L|[L|L]]; auto; exfalso.
  - rewrite sgn_neg in S by auto. pose proof (Rle_abs (- (k * -1))). rewrite Rabs_Ropp in H. lra.
  - rewrite sgn_pos in S by auto. pose proof (Rle_abs (k * 1)). lra.
Qed.

(** Entries of B = (A + I)/2 for a rotation near a half turn. *)
Lemma near_half_false (x y z s c e : R) : x * x + y * y + z * z = 1 -> 0 <= s -> s * s + c * c = 1 -> c <= 0 -> 0 < e -> e <= 1/1000 -> s < e ->
  e * e < (1 + c + (1 - c) * (x * x)) / 2 ->
  ((1 - c) * x * y = s * z -> 1/4 <= (1 + c + (1 - c) * (y * y)) / 2 -> 1/4 <= (1 + c + (1 - c) * (z * z)) / 2 /\ (1 - c) * (y * y) <= z * z) /\
  ((1 - c) * x * z = - s * y -> 1/4 <= (1 + c + (1 - c) * (z * z)) / 2 -> 1/4 <= (1 + c + (1 - c) * (y * y)) / 2 /\ (1 - c) * (z * z) <= y * y).
Proof.
  intros U S0 SC C E0 E1 SE K0.
  assert (C1 : 0 <= 1 + c) by nra.
  assert (C2 : 1 + c <= e * e) by nra.
  assert (X : e * e <= (1 - c) * (x * x)) by lra.
  assert (EE : 0 < e * e) by nra. assert (EE' : e * e <= 1/1000000) by nra.
  assert (SS : s * s <= e * e) by nra.
  assert (G : forall a b w, w * w = s * s -> (1 - c) * x * a = w * b -> (1 - c) * (a * a) <= b * b).
  { intros a b w W H.
    assert (H2 : (1 - c) * (x * x) * ((1 - c) * (a * a)) = s * s * (b * b)).
    { replace ((1 - c) * (x * x) * ((1 - c) * (a * a))) with ((1 - c) * x * a * ((1 - c) * x * a)) by ring. rewrite H. rewrite <- W. ring. }
    assert (H3 : e * e * ((1 - c) * (a * a)) <= e * e * (b * b)).
    { apply Rle_trans with ((1 - c) * (x * x) * ((1 - c) * (a * a))).
      - apply Rmult_le_compat_r; auto. pose proof (Rle_0_sqr a) as Q. unfold Rsqr in Q. nra.
      - rewrite H2. apply Rmult_le_compat_r; auto. pose proof (Rle_0_sqr b) as Q. unfold Rsqr in Q. lra. }
    apply Rmult_le_reg_l with (e * e); auto. }
  split; intros H1 H2.
  - assert (Q : (1 - c) * (y * y) <= z * z) by (apply (G y z s); auto). split; auto. nra.
  - assert (Q : (1 - c) * (z * z) <= y * y) by (apply (G z y (- s)); [ring|auto]). split; auto. nra.
Qed.

Lemma rot_half_entries k t : unit3 k -> let B := mscale (1 / 2) (madd (rot k t) I3) in
  m00 B = (1 + cos t + (1 - cos t) * (vx k * vx k)) / 2 /\ m11 B = (1 + cos t + (1 - cos t) * (vy k * vy k)) / 2 /\
  m22 B = (1 + cos t + (1 - cos t) * (vz k * vz k)) / 2 /\
  m01 B = ((1 - cos t) * vx k * vy k - sin t * vz k) / 2 /\ m02 B = ((1 - cos t) * vx k * vz k + sin t * vy k) / 2.
Proof.
  intros U B. unfold B. clear B. destruct k as [x y z]. rot_unfold. generalize (cos t) (sin t). intros c s.
  split; [replace (x * x) with (1 - y * y - z * z) by lra; field|].
  split; [replace (y * y) with (1 - x * x - z * z) by lra; field|].
  split; [replace (z * z) with (1 - x * x - y * y) by lra; field|].
  split; field.
Qed.
Lemma half_root k m : 0 <= k -> k * k = m -> 1/4 <= m -> 1/2 <= k.
Proof. intros. nra. Qed.
Lemma root_lt a k m : 0 <= a -> k * k = m -> a < k -> a * a < m.
Proof. intros. nra. Qed.
Lemma root_le a k m : 0 <= k -> k * k = m -> k <= a -> m <= a * a.
Proof. intros. nra. Qed.
Lemma no_yz y z c b1 b2 s : (1 - c) * (y * y) <= z * z -> (1 - c) * (z * z) <= y * y -> 1/4 <= b1 -> 1/4 <= b2 ->
  b1 = (1 + c + (1 - c) * (y * y)) / 2 -> b2 = (1 + c + (1 - c) * (z * z)) / 2 -> c <= 0 -> -1 <= c ->
  s * s < 1/1000000 -> s * s + c * c = 1 -> False.
Proof.
  intros I1 I2 L1 L2 B1 B2 C CL S PY. assert (CC : c <= - (9/10)) by nra.
  assert (y * y <= 0) by nra. assert (z * z <= 0) by nra. nra.
Qed.
(** If the measured error is small then so is the real one, except close to a half turn about an
    axis orthogonal to x and almost orthogonal to y, where R2rot reads a wrong entry. *)
Lemma R2rot_small tol k t a th : unit3 k -> 0 <= t <= PI -> tol <= 1/2 ->
  R2rot (rot k t) = Fin (a, th) -> small tol (vscale (sin (th / 2)) (axis_vec a)) ->
  small (Rmax tol eps6) (vscale (sin (t / 2)) k) \/
  (sin t < eps6 /\ cos t <= 0 /\ m02 (rot k t) = 0 /\ (1 + m00 (rot k t)) / 2 <= eps6 * eps6 /\
   eps6 * eps6 < (1 + m11 (rot k t)) / 2 < tol * tol).
Proof.
  intros U B T E S. pose proof (sin_nonneg_0_PI t B) as SN. pose proof PI_pos as PP.
  destruct (Rlt_dec (sin t) eps6) as [SE|SE].
  2:{ left. rewrite (R2rot_generic k t U B) in E by (unfold eps6 in SE; lra). inversion E; subst. simpl in S.
      eapply small_le; [|exact S]. apply Rmax_l. }
  destruct (Rlt_dec 0 (cos t)) as [C|C].
  { left. eapply small_le; [|apply (small_scale eps6)]; [apply Rmax_r|apply sin_half_near; auto|auto]. }
  right. apply Rnot_lt_le in C.
  unfold R2rot in E. rewrite R2rot_sin, R2rot_cos in E by auto. fold eps6 in E.
  rewrite (Rltb_lt _ _ SE), (Rltb_ge 0 (cos t)) in E by auto.
  set (Bm := mscale (1 / 2) (madd (rot k t) I3)) in E.
  destruct (Rltb (m00 Bm) 0 || Rltb (m11 Bm) 0 || Rltb (m22 Bm) 0)%bool eqn:NG; [discriminate|].
  rewrite !orb_false_iff, !Rltb_false in NG. destruct NG as [[G0 G1] G2].
  destruct (rot_half_entries k t U) as (B00 & B11 & B22 & B01 & B02). fold Bm in B00, B11, B22, B01, B02.
  assert (M00 : (1 + m00 (rot k t)) / 2 = m00 Bm) by (unfold Bm, mscale, madd, I3; cbn [m00]; field).
  assert (M11 : (1 + m11 (rot k t)) / 2 = m11 Bm) by (unfold Bm, mscale, madd, I3; cbn [m11]; field).
  assert (M02 : m02 (rot k t) = 2 * m02 Bm) by (unfold Bm, mscale, madd, I3; cbn [m02]; field).
  assert (TR : m00 Bm + m11 Bm + m22 Bm = 2 + cos t). { rewrite B00, B11, B22. unfold unit3, dot in U. nra. }
  assert (CL : -1 <= cos t) by (pose proof (COS_bound t); lra).
  rewrite M00, M11, M02. clear M00 M11 M02. clearbody Bm.
  assert (Q0 : sqrt (m00 Bm) * sqrt (m00 Bm) = m00 Bm) by (apply sqrt_sqrt; auto).
  assert (Q1 : sqrt (m11 Bm) * sqrt (m11 Bm) = m11 Bm) by (apply sqrt_sqrt; auto).
  assert (Q2 : sqrt (m22 Bm) * sqrt (m22 Bm) = m22 Bm) by (apply sqrt_sqrt; auto).
  pose proof (sqrt_pos (m00 Bm)) as P0. pose proof (sqrt_pos (m11 Bm)) as P1. pose proof (sqrt_pos (m22 Bm)) as P2.
  set (k0 := sqrt (m00 Bm)) in *. set (k1 := sqrt (m11 Bm)) in *. set (k2 := sqrt (m22 Bm)) in *.
  rewrite (Rabs_right k0), (Rabs_right k1) in E by lra.
  assert (E6 : 0 < eps6 <= 1/1000) by (unfold eps6; lra).
  assert (SPI : sin (PI / 2) = 1) by apply sin_PI2.
  assert (TP : 0 < tol). { destruct S as [S _]. pose proof (Rabs_pos (vx (vscale (sin (th / 2)) (axis_vec a)))). lra. }
  destruct (Rltb eps6 k0) eqn:K0.
  - (* no false convergence here *)
    exfalso. apply Rltb_true in K0. inversion E; subst a th. rewrite SPI in S. unfold small, vscale in S. cbn [axis_vec vx vy vz] in S. rewrite !Rmult_1_l in S.
    destruct S as (S0 & S1 & S2). rewrite Rabs_right in S0 by lra.
    assert (D : forall m, m / k0 = 0 -> m = 0). { intros m H. apply Rmult_eq_reg_r with (/ k0); [unfold Rdiv in H; lra|apply Rinv_neq_0_compat; lra]. }
    destruct (near_half_false (vx k) (vy k) (vz k) (sin t) (cos t) eps6) as [F1 F2]; try lra.
    { unfold unit3, dot in U. lra. } { pose proof (sin2_cos2 t) as H. unfold Rsqr in H. lra. } { rewrite <- B00. apply (root_lt eps6 k0); auto; lra. }
    rewrite <- B11, <- B22 in F1, F2.
    assert (Z1 : 1/4 <= m11 Bm -> (1 - cos t) * vx k * vy k = sin t * vz k).
    { intros H. assert (1/2 <= k1) by (apply (half_root _ _ P1 Q1 H)). assert (m01 Bm = 0) by (apply D; apply (sgn_zero_small tol k1); [lra|auto]). lra. }
    assert (Z2 : 1/4 <= m22 Bm -> (1 - cos t) * vx k * vz k = - sin t * vy k).
    { intros H. assert (1/2 <= k2) by (apply (half_root _ _ P2 Q2 H)). assert (m02 Bm = 0) by (apply D; apply (sgn_zero_small tol k2); [lra|auto]). lra. }
    assert (BOTH : 1/4 <= m11 Bm /\ 1/4 <= m22 Bm).
    { destruct (Rle_dec (1/4) (m11 Bm)) as [L|L].
      - split; auto. apply F1; auto.
      - assert (S02 : m00 Bm <= 1/2 * (1/2)) by (apply (root_le (1/2) k0); lra).
        assert (L2 : 1/4 <= m22 Bm) by lra. split; auto. apply F2; auto. }
    destruct BOTH as [L1 L2]. destruct (F1 (Z1 L1) L1) as [_ I1]. destruct (F2 (Z2 L2) L2) as [_ I2].
    apply (no_yz (vy k) (vz k) (cos t) (m11 Bm) (m22 Bm) (sin t)); auto.
    + assert (X : sin t * sin t < eps6 * eps6) by (clear - SE SN; nra). unfold eps6 in X. lra.
    + pose proof (sin2_cos2 t) as PY. unfold Rsqr in PY. lra.
  - apply Rltb_false in K0. destruct (Rltb eps6 k1) eqn:K1.
    + apply Rltb_true in K1. inversion E; subst a th. rewrite SPI in S. unfold small, vscale in S. cbn [axis_vec vx vy vz] in S. rewrite !Rmult_1_l in S.
      destruct S as (S0 & S1 & S2). rewrite Rabs_right in S1 by lra.
      assert (R0 : m00 Bm <= eps6 * eps6) by (apply (root_le eps6 k0); auto).
      assert (R1 : m11 Bm <= 1/2 * (1/2)) by (apply (root_le (1/2) k1); auto; lra).
      assert (tol <= k2). { assert (1/2 <= k2) by (apply (half_root k2 (m22 Bm)); auto; unfold eps6 in R0; lra). lra. }
      assert (M : m02 Bm / k1 = 0) by (apply (sgn_zero_small tol k2); auto).
      assert (m02 Bm = 0). { apply Rmult_eq_reg_r with (/ k1); [unfold Rdiv in M; lra|apply Rinv_neq_0_compat; lra]. }
      repeat split; auto; try lra. { apply (root_lt eps6 k1); auto; lra. } rewrite <- Q1. clear - S1 P1 TP. nra.
    + exfalso. apply Rltb_false in K1. inversion E; subst a th. rewrite SPI in S. unfold small, vscale in S. cbn [axis_vec vx vy vz] in S. rewrite !Rmult_1_l in S.
      destruct S as (S0 & S1 & S2). rewrite Rabs_right in S2 by lra.
      assert (R0 : m00 Bm <= eps6 * eps6) by (apply (root_le eps6 k0); auto). assert (R1 : m11 Bm <= eps6 * eps6) by (apply (root_le eps6 k1); auto).
      assert (1/2 <= k2) by (apply (half_root k2 (m22 Bm)); auto; unfold eps6 in R0, R1; lra). lra.
Qed.

(** *** The loop *)
Lemma step_ok pinv r pose Kp KR tol q b q' : length q = length (rtype r) ->
  iterative_step pinv r pose Kp KR tol q = Ok (b, q') ->
  exists s e, measured r pose q s e /\
    if b then small tol s /\ small tol e /\ q' = q
    else ~ (small tol s /\ small tol e) /\ descent pinv r pose Kp KR q q'.
Proof.
  intros L E. unfold iterative_step in E. destruct (fwdkin r q true) as [T|] eqn:F; [|discriminate]. cbn [bind] in E.
  destruct (robotjacobian r q true) as [J|] eqn:EJ; [|discriminate]. cbn [bind] in E.
  destruct (R2rot (mmul (mT (tR pose)) (tR T))) as [[k theta]|] eqn:ER; [|discriminate].
  fold (tool_error T pose) in E. set (s := vscale (sin (theta / 2)) (axis_vec k)) in *.
  destruct (pinv _ _) as [delta|] eqn:EP; [|discriminate]. cbn [bind] in E.
  exists s, (tool_error T pose). assert (M : measured r pose q s (tool_error T pose)) by (exists T, k, theta; auto). split; auto.
  destruct (all_below tol s && all_below tol (tool_error T pose))%bool eqn:AB.
  - inversion E; subst. apply andb_true_iff in AB as [A B]. rewrite all_below_small in A, B. auto.
  - destruct (Nat.eqb_spec (length delta) (length (rtype r))) as [LD|LD]; [|discriminate]. inversion E; subst. split.
    + intros [A B]. apply all_below_small in A. apply all_below_small in B. rewrite A, B in AB. discriminate.
    + exists T, J, s, (tool_error T pose), delta. repeat split; auto.
      * rewrite map_length, combine_length. lia.
      * intros i Li. rewrite <- L in Li, LD. clear -Li LD. revert delta i Li LD.
        induction q as [|x q IH]; intros [|d delta] i Li LD; simpl in *; try lia. destruct i; auto. apply IH; lia.
Qed.
Lemma loop_ok pinv r pose Kp KR tol m q b q' : length q = length (rtype r) ->
  iterative_loop pinv r pose Kp KR tol m q = Ok (b, q') ->
  exists n qs, (n <= m)%nat /\ qs 0%nat = q /\ qs n = q' /\ length q' = length (rtype r) /\
    (forall i, (i < n)%nat -> descent pinv r pose Kp KR (qs i) (qs (S i)) /\
       forall s e, measured r pose (qs i) s e -> ~ (small tol s /\ small tol e)) /\
    (b = true -> (n < m)%nat /\ exists s e, measured r pose (qs n) s e /\ small tol s /\ small tol e) /\
    (b = false -> n = m).
Proof.
  assert (MU : forall q s e s' e', measured r pose q s e -> measured r pose q s' e' -> s = s' /\ e = e').
  { intros p s e s' e' (T & k & th & A & B & -> & ->) (T' & k' & th' & A' & B' & -> & ->). rewrite A in A'. inversion A'; subst T'. rewrite B in B'. inversion B'; subst. auto. }
  revert q. induction m as [|m IH]; intros q L E; simpl in E.
  - inversion E; subst. exists 0%nat, (fun _ => q'). repeat split; auto; try lia; try discriminate.
  - destruct (iterative_step pinv r pose Kp KR tol q) as [[c p]|] eqn:ES; [|discriminate]. cbn [bind fst snd] in E.
    destruct (step_ok _ _ _ _ _ _ _ _ _ L ES) as (s & e & M & H). destruct c.
    + inversion E; subst. destruct H as (A & B & ->). exists 0%nat, (fun _ => q). repeat split; auto; try lia; try discriminate. exists s, e. auto.
    + destruct H as [N D]. destruct (IH p) as (n & qs & Ln & Q0 & Qn & LQ & ST & BT & BF); auto. { destruct D as (T & J & s' & e' & dl & _ & _ & _ & _ & _ & LP & _). auto. }
      exists (S n), (fun i => match i with O => q | S j => qs j end). repeat split; auto; try lia.
      * destruct i as [|i]; [rewrite Q0; auto|apply ST; lia].
      * destruct i as [|i]; [|apply ST; lia]. intros s' e' M'. destruct (MU _ _ _ _ _ M M') as [<- <-]. auto.
      * destruct (BT H); lia.
      * apply BT; auto.
Qed.
Lemma norm_ignore r seed j lj theta : nth_error seed j = Some lj ->
  exists x, normalize (normalize_joints r (Some seed) true) j theta = Ok (Some x) /\ ang_eq x theta /\ - PI < lj - x <= PI.
Proof.
  intros E. unfold normalize, normalize_joints. cbn [nlimits nlast].
  assert (X : (match rlower r, rupper r with Some _, Some _ => @None (list R * list R) | _, _ => None end) = None) by (destruct (rlower r), (rupper r); auto).
  destruct (rlower r), (rupper r); cbn [bind]; rewrite (proj2 (index_ok seed j lj) E); cbn [bind]; cbv zeta;
    pose proof (turns_to_spec lj theta) as T; cbv zeta in T;
    (destruct (Z.eqb_spec (turns_to lj theta) 0) as [Z|Z];
     [rewrite Z, Rmult_0_r, Rplus_0_r in T; exists theta; auto using ang_eq_refl
     |eexists; split; [reflexivity|]; split; [exists (turns_to lj theta); ring|auto]]).
Qed.
Lemma final_near r seed p : length p = length seed ->
  exists q, map_out (fun p => normalize (normalize_joints r (Some seed) true) (fst p) (snd p)) (combine (seq 0 (length seed)) p) = Ok (map Some q) /\
            near_seed seed p q.
Proof.
  intros L.
  assert (G : forall l k, (k + length l <= length seed)%nat ->
    exists q, map_out (fun p => normalize (normalize_joints r (Some seed) true) (fst p) (snd p)) (combine (seq k (length l)) l) = Ok (map Some q) /\
      length q = length l /\ forall i, (i < length l)%nat -> ang_eq (nth i q 0) (nth i l 0) /\ - PI < nth (k + i) seed 0 - nth i q 0 <= PI).
  { induction l as [|x l IH]; intros k K; simpl in *.
    - exists []. repeat split; auto; lia.
    - destruct (IH (S k) ltac:(lia)) as (q & E & Lq & H).
      destruct (norm_ignore r seed k (nth k seed 0) x) as (y & Ey & A & B). { apply nth_error_nth'. lia. }
      exists (y :: q). rewrite Ey, E. cbn [bind map]. simpl. repeat split; auto.
      + destruct i; auto. apply H. lia.
      + destruct i; [rewrite Nat.add_0_r; lra|]. destruct (H i ltac:(lia)) as [_ W]. rewrite Nat.add_succ_r. simpl in W. lra.
      + destruct i; [rewrite Nat.add_0_r; lra|]. destruct (H i ltac:(lia)) as [_ W]. rewrite Nat.add_succ_r. simpl in W. lra. }
  destruct (G p 0%nat ltac:(lia)) as (q & E & Lq & H). rewrite L in *. exists q. split; auto. repeat split; auto; apply H; auto.
Qed.
Lemma flat_map_some {A} (l : list A) : flat_map (fun o => match o with Some x => [x] | None => [] end) (map Some l) = l.
Proof. induction l; simpl; congruence. Qed.
Lemma iterative_inv pinv r pose seed m Kp KR tol b q : iterative_invkin pinv r pose seed m Kp KR tol = Ok (b, q) ->
  length seed = length (rtype r) /\ length (rtype r) <> 1%nat /\
  exists p, iterative_loop pinv r pose Kp KR tol m seed = Ok (b, p) /\ length p = length seed /\ near_seed seed p q.
Proof.
  unfold iterative_invkin. destruct (Nat.eqb_spec (length seed) (length (rtype r))) as [L|L]; [|discriminate]. cbn [negb].
  destruct (iterative_loop pinv r pose Kp KR tol m seed) as [[c p]|] eqn:E; [|discriminate]. cbn [bind].
  destruct (Nat.eqb_spec (length (rtype r)) 1) as [N|N]; [discriminate|]. cbn [fst snd].
  destruct (loop_ok _ _ _ _ _ _ _ _ _ _ L E) as (n & qs & _ & _ & _ & LP & _).
  destruct (final_near r seed p ltac:(lia)) as (q' & Eq & NS). rewrite <- L, Eq. cbn [bind]. rewrite flat_map_some.
  intros X. inversion X; subst. split; auto. split; [lia|]. exists p. repeat split; auto; try lia; apply NS; auto.
Qed.
Lemma near_seed_unique seed p q q' : near_seed seed p q -> near_seed seed p q' -> q = q'.
Proof.
  intros (L & LP & H) (L' & _ & H'). apply (nth_ext q q' 0 0); [lia|]. intros i Li. destruct (H i ltac:(lia)) as [A B]. destruct (H' i ltac:(lia)) as [A' B'].
  assert (AE : ang_eq (nth i q 0) (nth i q' 0)) by (eapply ang_eq_trans; [apply A|apply ang_eq_sym; auto]). destruct AE as [k Ek].
  pose proof PI_pos. assert (-1 < k < 1)%Z. { split; apply lt_IZR; apply Rmult_lt_reg_r with (2 * PI); lra. }
  assert (k = 0)%Z by lia. subst. lra.
Qed.
Lemma near_seed_turns r seed p q : Forall (fun j => j = Rotary) (rtype r) -> length seed = length (rtype r) -> near_seed seed p q -> same_turns (rtype r) p q.
Proof.
  intros F L (Lq & Lp & H).
  assert (H' : forall i, (i < length seed)%nat -> ang_eq (nth i q 0) (nth i p 0)) by (intros i Li; apply H; auto). clear H.
  revert seed p q L Lq Lp H'. induction F as [|j ty -> F IH]; intros [|s seed] p q L Lq Lp H; simpl in *; try lia.
  - destruct p; [|discriminate]. destruct q; [|discriminate]. constructor.
  - destruct p as [|x p]; [discriminate|]. destruct q as [|y q]; [discriminate|]. apply st_turn; auto.
    + apply ang_eq_sym. apply (H 0%nat). lia.
    + apply (IH seed); auto; simpl in *; try lia. intros i Li. apply (H (S i)). lia.
Qed.
(** The loop never fails when forward kinematics, R2rot and the pseudo-inverse do not. *)
Lemma loop_total pinv r pose Kp KR tol m : wf_robot r -> wf_aux r -> Forall plain_type (rtype r) -> rigid pose ->
  (forall J b, exists d, pinv J b = Ok d /\ length d = length J) ->
  forall q, length q = length (rtype r) -> exists b p, iterative_loop pinv r pose Kp KR tol m q = Ok (b, p).
Proof.
  intros W WA PT RG PV. induction m as [|m IH]; intros q L; simpl; [eauto|].
  assert (S : exists b p, iterative_step pinv r pose Kp KR tol q = Ok (b, p)).
  { unfold iterative_step. rewrite fwdkin_ignore by (auto; lia). cbn [bind].
    set (T := apply_aux r (bare_pose r q)).
    assert (RT : rigid T). { apply (rigid_apply_aux r _ WA (rigid_bare r q W)). }
    pose proof (jacobian_count r q W ltac:(lia)) as JC.
    rewrite column_count_plain in JC by (eapply Forall_impl; [|exact PT]; intros j [-> | ->]; discriminate).
    destruct JC as (J & -> & LJ). cbn [bind].
    destruct (R2rot_total (mmul (mT (tR pose)) (tR T))) as (k & th & ->). { apply SO3_mmul; auto. apply SO3_T; auto. }
    destruct (PV (to_tool_frame (tR T) J) (V6 (mvec KR (vscale (sin (th / 2)) (axis_vec k))) (mvec Kp (mvec (mT (tR T)) (vsub (tp T) (tp pose)))))) as (d & Ed & Ld).
    rewrite Ed. cbn [bind]. destruct (_ && _)%bool; [eauto|]. unfold to_tool_frame in Ld. rewrite map_length in Ld. rewrite Ld, LJ, Nat.eqb_refl. eauto. }
  destruct S as (b & p & S). rewrite S. cbn [bind fst snd]. destruct b; [eauto|]. apply IH.
  destruct (step_ok _ _ _ _ _ _ _ _ _ L S) as (s & e & _ & _ & D). destruct D as (T & J & s' & e' & dl & _ & _ & _ & _ & _ & LP & _). auto.
Qed.
