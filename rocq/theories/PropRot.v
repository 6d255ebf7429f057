(** Properties C01-C15: rotations, quaternions, roll-pitch-yaw, slerp, screws. *)
From Coq Require Import Reals ZArith Lra Lia Psatz.
From Verif Require Import LinAlg RealAux Py ModelRot SpecRot FactsReal FactsLinAlg FactsRot FactsRot2 FactsDeriv FactsSlerp.
Open Scope R_scope.

(** A unit axis with no zero component, used by the examples. *)
Definition k_ex : vec3 := V3 (2/3) (-1/3) (2/3).
Example k_ex_unit : unit3 k_ex.
Proof. unfold unit3, k_ex, dot; simpl; lra. Qed.
Definition q_ex : quat := Q4 (1/2) (1/2) (-1/2) (1/2).
Example q_ex_unit : unit4 q_ex.
Proof. unfold unit4, q_ex, qdot; simpl; lra. Qed.

(* ================= C01 ================= *)
Theorem C01_hat_cross : forall k v,
  mvec (hat k) v = cross k v /\ mT (hat k) = mscale (-1) (hat k) /\ invhat (hat k) = k.
Proof. intros; repeat split. exact (hat_cross k v). exact (hat_skew k). exact (invhat_hat k). Qed.
Theorem C01_invhat : forall S,
  (skew S -> hat (invhat S) = S) /\
  (forall v, cross (invhat S) v = vscale (1/2) (vsub (mvec S v) (mvec (mT S) v))).
Proof. intros; split. exact (hat_invhat S). exact (invhat_skew_part S). Qed.
Example C01_ex : skew (hat k_ex) /\ hat k_ex <> mzero.
Proof. split. exact (hat_skew _). unfold hat, k_ex, mzero; simpl. intros E. injection E. intros; lra. Qed.
Print Assumptions C01_hat_cross.
Print Assumptions C01_invhat.

(* ================= C02 ================= *)
Theorem C02_rot_is_rotation : forall k t, unit3 k ->
  is_SO3 (rot k t) /\ is_rotation_about k t (rot k t) /\ mvec (rot k t) k = k /\
  (forall v, norm (mvec (rot k t) v) = norm v) /\ trace (rot k t) = 1 + 2 * cos t.
Proof.
  intros k t H. split. exact (rot_SO3 k t H). split. exact (fun v => rot_rotate k t v H).
  split. exact (rot_axis k t). split. exact (fun v => SO3_norm _ v (rot_SO3 k t H)). exact (rot_trace k t H).
Qed.
(** The matrix is the only one with that action. *)
Theorem C02_rot_unique : forall k t M, unit3 k -> is_rotation_about k t M -> M = rot k t.
Proof. exact rot_unique. Qed.
(** Conjugation: turning about a turned axis. *)
Theorem C02_rot_conjugation : forall A k t, is_SO3 A ->
  mmul A (mmul (rot k t) (mT A)) = rot (mvec A k) t.
Proof. exact rot_conj. Qed.
(** The convention is right-handed: a quarter turn about z takes x to y. *)
Example C02_ex : mvec (rot ez (PI/2)) ex = ey /\ unit3 ez.
Proof.
  split.
  - unfold rot. rewrite sin_PI2, cos_PI2. rot_unfold. f_equal; ring.
  - unfold unit3, dot, ez; simpl; ring.
Qed.
Print Assumptions C02_rot_is_rotation.
Print Assumptions C02_rot_unique.
Print Assumptions C02_rot_conjugation.

(* ================= C03 ================= *)
Theorem C03_rot_group : forall k a b, unit3 k ->
  rot k 0 = I3 /\ mmul (rot k a) (rot k b) = rot k (a + b) /\
  rot k (- a) = mT (rot k a) /\ rot (vneg k) a = rot k (- a).
Proof.
  intros k a b H. split. exact (rot_0 k). split. exact (rot_add k a b H).
  split. exact (eq_sym (rot_T k a)). exact (rot_neg k a).
Qed.
Theorem C03_rot_period : forall k a b, unit3 k ->
  (rot k a = rot k b <-> exists n : Z, a = b + 2 * PI * IZR n).
Proof. intros k a b H. split. exact (rot_inj k a b H). exact (rot_ang_eq k a b). Qed.
Example C03_ex : rot k_ex (PI/3) = rot k_ex (PI/3 + 2 * PI * 5) /\ rot k_ex 1 <> rot k_ex 2.
Proof.
  split.
  - apply C03_rot_period. exact k_ex_unit. exists (-5)%Z. lra.
  - intros E. apply C03_rot_period in E; [|exact k_ex_unit]. destruct E as [n E].
    assert (IZR n < 0) by (pose proof PI_pos; nra). assert (-1 < IZR n) by (pose proof PI_lower; nra).
    apply lt_IZR in H. apply (lt_IZR (-1)) in H0. lia.
Qed.
Print Assumptions C03_rot_group.
Print Assumptions C03_rot_period.

(* ================= C04 ================= *)
(** Every rotation matrix is rot k t for a unit k and 0 <= t <= pi (Euler), so
    quantifying over k and t covers every rotation matrix. *)
Theorem C04_every_rotation_has_axis : forall A, is_SO3 A ->
  exists k t, unit3 k /\ 0 <= t <= PI /\ A = rot k t.
Proof. exact SO3_is_rot. Qed.
Theorem C04_R2rot_exact : forall k t, unit3 k -> 0 <= t <= PI -> 1 / 1000000 <= sin t ->
  R2rot (rot k t) = Fin (NdArray k, t).
Proof. exact R2rot_generic. Qed.
Theorem C04_R2rot_total : forall A, is_SO3 A -> exists a t, R2rot A = Fin (a, t).
Proof. exact R2rot_total. Qed.
Example C04_ex : unit3 k_ex /\ 0 <= PI/6 <= PI /\ 1 / 1000000 <= sin (PI/6).
Proof. pose proof PI_pos. rewrite sin_PI6. split. exact k_ex_unit. lra. Qed.
Print Assumptions C04_every_rotation_has_axis.
Print Assumptions C04_R2rot_exact.
Print Assumptions C04_R2rot_total.

(* ================= C05 ================= *)
Theorem C05_R2rot_near_identity : forall k t, unit3 k -> 0 <= t <= PI -> sin t < 1 / 1000000 -> 0 < cos t ->
  R2rot (rot k t) = Fin (PyList (V3 0 0 1), 0) /\ mat_close (2 / 1000000) (rot k t) I3.
Proof. intros k t H1 H2 H3 H4. split. exact (R2rot_near_I k t H1 H2 H3 H4). exact (rot_near_I_close k t H1 H2 H3 H4). Qed.
(** The identity-branch axis is a Python list, which rot2q rejects: the round
    trip rot2q( *R2rot(R)) raises AttributeError near the identity. *)
Theorem C05_rot2q_R2rot_refuted : exists A a t,
  is_SO3 A /\ R2rot A = Fin (a, t) /\ rot2q a t = Err AttributeError.
Proof.
  exists (rot ez 0), (PyList (V3 0 0 1)), 0.
  assert (unit3 ez) by (unfold unit3, dot, ez; simpl; ring).
  split. apply rot_SO3; auto. split; [|reflexivity].
  apply R2rot_near_I; auto. pose proof PI_pos; lra. rewrite sin_0; lra. rewrite cos_0; lra.
Qed.
Example C05_ex : unit3 k_ex /\ 0 <= 1/10000000 <= PI /\ sin (1/10000000) < 1/1000000 /\ 0 < cos (1/10000000).
Proof.
  pose proof PI_lower. split. exact k_ex_unit. split. lra. split.
  - pose proof (sin_lt_x (1/10000000)). lra.
  - apply cos_gt_0; lra.
Qed.
Print Assumptions C05_R2rot_near_identity.
Print Assumptions C05_rot2q_R2rot_refuted.

(* ================= C06 ================= *)
(** As stated C06 is false: the half turn about (0, 3/5, 4/5). *)
Theorem C06_R2rot_half_turn_refuted : exists k k', unit3 k /\
  R2rot (rot k PI) = Fin (NdArray k', PI) /\ ~ unit3 k' /\ rot k' PI <> rot k PI.
Proof.
  exists (V3 0 (3/5) (4/5)), (V3 0 (3/5) 0).
  assert (U : unit3 (V3 0 (3/5) (4/5))) by (unfold unit3, dot; simpl; lra).
  split; auto. split; [|split].
  - rewrite R2rot_half_turn by auto. do 3 f_equal. unfold half_turn_axis; cbn [vx vy vz].
    rewrite Rabs_R0, (Rabs_right (3/5)), Rmult_0_l, sgn_0 by lra.
    rewrite Rltb_ge by lra. rewrite Rltb_lt by lra. f_equal; ring.
  - unfold unit3, dot; simpl; lra.
  - intros E. apply half_turn_eq in E; auto. destruct E as [E|E]; unfold vneg in E; simpl in E; injection E; lra.
Qed.
(** Exactly which half turns are recovered. *)
Theorem C06_R2rot_half_turn_iff : forall k, unit3 k ->
  exists k', R2rot (rot k PI) = Fin (NdArray k', PI) /\ (rot k' PI = rot k PI <-> half_turn_ok k).
Proof.
  intros k H. exists (half_turn_axis k). split. exact (R2rot_half_turn k H). exact (half_turn_ok_iff k H).
Qed.
Theorem C06_R2rot_half_turn_partial : forall k, unit3 k -> 1 / 1000000 < Rabs (vx k) ->
  exists k', R2rot (rot k PI) = Fin (NdArray k', PI) /\ (k' = k \/ k' = vneg k) /\ rot k' PI = rot k PI.
Proof.
  intros k H Hx. exists (half_turn_axis k). split. exact (R2rot_half_turn k H).
  assert (E : rot (half_turn_axis k) PI = rot k PI) by (apply (half_turn_ok_iff k H); left; exact Hx).
  split; [apply (half_turn_eq k _ H); exact E | exact E].
Qed.
Example C06_ex : unit3 k_ex /\ 1 / 1000000 < Rabs (vx k_ex) /\ half_turn_ok k_ex /\ ~ half_turn_ok (V3 0 (3/5) (4/5)).
Proof.
  assert (X : 1 / 1000000 < Rabs (vx k_ex)) by (simpl; rewrite Rabs_right; lra).
  split. exact k_ex_unit. split; auto. split. left; auto.
  unfold half_turn_ok; simpl. rewrite Rabs_R0, (Rabs_right (3/5)) by lra. lra.
Qed.
Print Assumptions C06_R2rot_half_turn_refuted.
Print Assumptions C06_R2rot_half_turn_iff.
Print Assumptions C06_R2rot_half_turn_partial.

(* ================= C07 ================= *)
Theorem C07_q2R_rotation : forall q, unit4 q ->
  is_SO3 (q2R q) /\ q2R (qneg q) = q2R q /\ q2R (quatcomplement q) = mT (q2R q) /\
  (forall v, mvec (q2R q) v = sandwich q v).
Proof.
  intros q H. split. exact (q2R_SO3 q H). split. exact (q2R_neg q).
  split. rewrite quatcomplement_conj; exact (eq_sym (q2R_T q)). exact (fun v => q2R_sandwich q v H).
Qed.
Theorem C07_q2R_homomorphism : forall a b, unit4 a -> unit4 b ->
  q2R (m4vec (quatproduct a) b) = mmul (q2R a) (q2R b).
Proof. intros a b Ha Hb. rewrite quatproduct_hamilton. exact (q2R_hamilton a b Ha Hb). Qed.
Theorem C07_q2R_double_cover : forall a b, unit4 a -> unit4 b -> q2R a = q2R b -> a = b \/ a = qneg b.
Proof. exact q2R_inj. Qed.
Example C07_ex : unit4 q_ex /\ q2R q_ex <> I3.
Proof.
  split. exact q_ex_unit. intros E. apply (f_equal m00) in E. unfold q_ex in E. rot_unfold. lra.
Qed.
Print Assumptions C07_q2R_rotation.
Print Assumptions C07_q2R_homomorphism.
Print Assumptions C07_q2R_double_cover.

(* ================= C08 ================= *)
Theorem C08_quatproduct_hamilton : forall a b c,
  m4vec (quatproduct a) b = hamilton a b /\
  m4vec (quatproduct (m4vec (quatproduct a) b)) c = m4vec (quatproduct a) (m4vec (quatproduct b) c) /\
  qdot (m4vec (quatproduct a) b) (m4vec (quatproduct a) b) = qdot a a * qdot b b /\
  m4vec (quatproduct qone) a = a /\ m4vec (quatproduct a) qone = a /\
  m4vec (quatproduct a) (quatcomplement a) = Q4 (qdot a a) 0 0 0 /\
  m4vec (quatproduct (quatcomplement a)) a = Q4 (qdot a a) 0 0 0.
Proof.
  intros a b c. rewrite !quatproduct_hamilton, quatcomplement_conj.
  split. reflexivity. split. exact (hamilton_assoc a b c). split. exact (hamilton_norm a b).
  split. exact (hamilton_one_l a). split. exact (hamilton_one_r a).
  split. exact (hamilton_conj_r a). exact (hamilton_conj_l a).
Qed.
(** i j = k, and the product is not commutative. *)
Example C08_ex : m4vec (quatproduct (Q4 0 1 0 0)) (Q4 0 0 1 0) = Q4 0 0 0 1 /\
                 m4vec (quatproduct (Q4 0 0 1 0)) (Q4 0 1 0 0) = Q4 0 0 0 (-1).
Proof. rewrite !quatproduct_hamilton. split; rot_unfold; f_equal; ring. Qed.
Print Assumptions C08_quatproduct_hamilton.

(* ================= C09 ================= *)
Theorem C09_R2q_correct : forall A, is_SO3 A -> exists q, R2q A = Ok (Fin q) /\ unit4 q /\ q2R q = A.
Proof. exact R2q_correct. Qed.
Theorem C09_R2q_q2R : forall q, unit4 q -> R2q (q2R q) = Ok (Fin q) \/ R2q (q2R q) = Ok (Fin (qneg q)).
Proof. exact R2q_q2R. Qed.
Example C09_ex : is_SO3 (rot k_ex PI) /\ trace (rot k_ex PI) <= 0.
Proof. split. apply rot_SO3, k_ex_unit. rewrite rot_trace, cos_PI by exact k_ex_unit. lra. Qed.
Print Assumptions C09_R2q_correct.
Print Assumptions C09_R2q_q2R.

(* ================= C10 ================= *)
Theorem C10_rot2q : forall k t, unit3 k ->
  exists q, rot2q (NdArray k) t = Ok q /\ unit4 q /\ q2R q = rot k t.
Proof. intros k t H. eexists. split. reflexivity. split. exact (half_unit4 k t H). exact (half_q2R k t H). Qed.
Example C10_ex : unit3 k_ex /\ rot2q (NdArray k_ex) PI = Ok (Q4 0 (2/3) (-1/3) (2/3)).
Proof.
  split. exact k_ex_unit. unfold rot2q, k_ex, qmk, vscale; simpl. rewrite sin_PI2, cos_PI2. do 2 f_equal; ring.
Qed.
Print Assumptions C10_rot2q.

(* ================= C11 ================= *)
(** False at q = (-1,0,0,0): no axis is returned. *)
Theorem C11_q2rot_refuted : exists q, unit4 q /\ q2rot q = NaN.
Proof. exists (Q4 (-1) 0 0 0). split. unfold unit4, qdot; simpl; ring. exact q2rot_minus_one. Qed.
Theorem C11_q2rot_partial : forall q, unit4 q -> -1 < q0 q ->
  exists k t, q2rot q = Fin (k, t) /\ unit3 k /\ 0 <= t < 2 * PI /\
   ((rot k t = q2R q) \/ (k = ez /\ t = 0 /\ mat_close (2 / 1000000) (q2R q) (rot k t))).
Proof.
  intros q U L. destruct (Rle_dec (1 / 1000000) (2 * acos (q0 q))) as [T|T].
  - destruct (q2rot_ok q U L T) as (k & E & Hk & Er & Hr). exists k, (2 * acos (q0 q)).
    split. exact E. split. exact Hk. split. lra. left. exact Er.
  - assert (T' : 2 * acos (q0 q) < 1/1000000) by lra.
    destruct (q2rot_near q U T') as [E C]. exists (V3 0 0 1), 0. pose proof PI_pos.
    split. exact E. split. unfold unit3, dot; simpl; ring. split. lra.
    right. rewrite rot_0. split. reflexivity. split. reflexivity. exact C.
Qed.
(** Away from the threshold the result is exact. *)
Theorem C11_q2rot_exact : forall q, unit4 q -> -1 < q0 q -> 1 / 1000000 <= 2 * acos (q0 q) ->
  exists k, q2rot q = Fin (k, 2 * acos (q0 q)) /\ unit3 k /\ rot k (2 * acos (q0 q)) = q2R q /\
            0 < 2 * acos (q0 q) < 2 * PI.
Proof. exact q2rot_ok. Qed.
Example C11_ex : unit4 q_ex /\ -1 < q0 q_ex /\ 1 / 1000000 <= 2 * acos (q0 q_ex).
Proof.
  split. exact q_ex_unit. simpl. split. lra.
  replace (1/2) with (cos (PI/3)) by (rewrite cos_PI3; reflexivity). pose proof PI_lower.
  rewrite acos_cos; lra.
Qed.
Print Assumptions C11_q2rot_refuted.
Print Assumptions C11_q2rot_partial.
Print Assumptions C11_q2rot_exact.

(* ================= C12 ================= *)
Theorem C12_quatjacobian_rate : forall q t w, unit4 (q t) ->
  qderiv q t (m43vec (quatjacobian (q t)) w) ->
  mderiv (fun s => q2R (q s)) t (mmul (cross_matrix w) (q2R (q t))).
Proof. exact q2R_deriv_spec. Qed.
Theorem C12_quatjacobian_tangent : forall q w,
  m43vec (quatjacobian q) w = qscale (1/2) (hamilton (qpure w) q) /\
  qdot q (m43vec (quatjacobian q) w) = 0.
Proof. intros q w. split. exact (quatjacobian_hamilton q w). exact (quatjacobian_tangent q w). Qed.
(** A spinning quaternion: rotation about z at unit speed meets the hypotheses at every time. *)
Example C12_ex : forall t,
  let q := fun s => Q4 (cos (1/2 * s)) 0 0 (sin (1/2 * s)) in
  unit4 (q t) /\ qderiv q t (m43vec (quatjacobian (q t)) ez).
Proof.
  intros t q. split.
  - unfold q, unit4, qdot; simpl. pose proof (sin_cos_1 (1/2*t)). lra.
  - unfold q. repeat split; cbn [q0 q1 q2 q3]; (eapply dpl_eq; [dpl|]);
      unfold quatjacobian, m43vec, hat; cbn [r43_0 r43_1 r43_2 r43_3]; la_unfold; field.
Qed.
Print Assumptions C12_quatjacobian_rate.
Print Assumptions C12_quatjacobian_tangent.

(* ================= C13 ================= *)
Theorem C13_rpy2R : forall r p y,
  rpy2R r p y = mmul (mmul (Rz y) (Ry p)) (Rx r) /\ is_SO3 (rpy2R r p y).
Proof. intros r p y. split. exact (rpy2R_spec r p y). exact (rpy2R_SO3 r p y). Qed.
Theorem C13_R2rpy_rpy2R : forall r p y,
  - PI < r <= PI -> - PI < y <= PI -> - (PI/2) < p < PI/2 -> eps * 10 < cos p ->
  R2rpy (rpy2R r p y) = Ok (r, p, y).
Proof. exact R2rpy_rpy2R. Qed.
Theorem C13_rpy2R_R2rpy : forall A r p y, is_SO3 A -> R2rpy A = Ok (r, p, y) ->
  rpy2R r p y = A /\ - (PI/2) < p < PI/2 /\ - PI < r <= PI /\ - PI < y <= PI.
Proof. exact rpy2R_R2rpy. Qed.
Theorem C13_R2rpy_guard : forall A,
  R2rpy A = Err AssertionError <-> sqrt (m00 A * m00 A + m10 A * m10 A) <= eps * 10.
Proof. exact R2rpy_guard. Qed.
(** Gimbal lock is rejected. *)
Theorem C13_gimbal_lock_raises : forall r y, R2rpy (rpy2R r (PI/2) y) = Err AssertionError.
Proof.
  intros r y. apply R2rpy_guard. rewrite rpy2R_entries, cos_PI2. cbn [m00 m10].
  replace (cos y * 0 * (cos y * 0) + sin y * 0 * (sin y * 0)) with 0 by ring. rewrite sqrt_0.
  pose proof eps_pos. lra.
Qed.
Example C13_ex : - PI < 3 <= PI /\ - PI < -3 <= PI /\ - (PI/2) < PI/3 < PI/2 /\ eps * 10 < cos (PI/3).
Proof. pose proof PI_lower. pose proof eps_small. rewrite cos_PI3. lra. Qed.
Print Assumptions C13_rpy2R.
Print Assumptions C13_R2rpy_rpy2R.
Print Assumptions C13_rpy2R_R2rpy.
Print Assumptions C13_R2rpy_guard.
Print Assumptions C13_gimbal_lock_raises.

(* ================= C14 ================= *)
Theorem C14_slerp_unit : forall a b t, 0 <= t <= 1 -> qnorm a <> 0 -> qnorm b <> 0 ->
  exists r, slerp a b t = Ok (Fin r) /\ unit4 r.
Proof. exact slerp_unit. Qed.
Theorem C14_slerp_geodesic : forall a b t, 0 <= t <= 1 -> qnorm a <> 0 -> qnorm b <> 0 ->
  exists r k phi, slerp a b t = Ok (Fin r) /\ unit4 r /\ unit3 k /\ 0 <= phi <= PI /\
    q2R (qdiv b (qnorm b)) = mmul (q2R (qdiv a (qnorm a))) (rot k phi) /\
    (2 / 1000000 <= phi -> q2R r = mmul (q2R (qdiv a (qnorm a))) (rot k (t * phi))) /\
    (phi < 2 / 1000000 -> q2R r = q2R (qdiv a (qnorm a))).
Proof. exact slerp_geodesic. Qed.
Theorem C14_slerp_endpoints : forall a b, qnorm a <> 0 -> qnorm b <> 0 ->
  (slerp a b 0 = Ok (Fin (qdiv a (qnorm a))) \/ slerp a b 0 = Ok (Fin (qneg (qdiv a (qnorm a))))) /\
  (Rabs (qdot (qdiv a (qnorm a)) (qdiv b (qnorm b))) <= cos (1 / 1000000) ->
     slerp a b 1 = Ok (Fin (qdiv b (qnorm b)))).
Proof. intros a b Ha Hb. split. exact (slerp_start a b Ha Hb). exact (slerp_end a b Ha Hb). Qed.
Theorem C14_slerp_sign : forall a b t, qdot a b <> 0 ->
  slerp (qneg a) b t = slerp a b t /\
  (forall r, slerp a b t = Ok (Fin r) -> slerp a (qneg b) t = Ok (Fin (qneg r))).
Proof.
  intros a b t H. split. exact (slerp_neg_l a b t H).
  intros r E. rewrite (slerp_neg_r a b t H), E. reflexivity.
Qed.
Theorem C14_slerp_range : forall a b t, t < 0 \/ 1 < t -> slerp a b t = Err AssertionError.
Proof. exact slerp_range. Qed.
Theorem C14_slerp_zero_quaternion : forall a b t, 0 <= t <= 1 -> qnorm a = 0 \/ qnorm b = 0 -> slerp a b t = Ok NaN.
Proof. exact slerp_zero. Qed.
Lemma qnorm_q_ex : qnorm q_ex = 1.
Proof. apply qnorm_unit, q_ex_unit. Qed.
Example C14_ex : qnorm q_ex <> 0 /\ qnorm (qscale 3 qone) <> 0 /\ qdot q_ex (qscale 3 qone) <> 0.
Proof.
  split. rewrite qnorm_q_ex; lra. split.
  - intros E. pose proof (qnorm_sq (qscale 3 qone)). rewrite E in H. unfold qdot, qscale, qone in H; simpl in H. lra.
  - unfold q_ex; rot_unfold; lra.
Qed.
Print Assumptions C14_slerp_unit.
Print Assumptions C14_slerp_geodesic.
Print Assumptions C14_slerp_endpoints.
Print Assumptions C14_slerp_sign.
Print Assumptions C14_slerp_range.
Print Assumptions C14_slerp_zero_quaternion.

(* ================= C15 ================= *)
Theorem C15_screw_group : forall a b,
  screw_matrix vzero = I6 /\ m6mul (screw_matrix a) (screw_matrix b) = screw_matrix (vadd a b).
Proof. intros a b. split. exact screw_0. exact (screw_add a b). Qed.
(** Moving a wrench from point 2 to point 1 and a twist from 1 to 2 keeps power. *)
Theorem C15_screw_power : forall r t w,
  dot6 (m6vec (m6T (screw_matrix r)) t) w = dot6 t (m6vec (screw_matrix r) w).
Proof. exact screw_power. Qed.
Theorem C15_screw_twist_wrench : forall r w v t f,
  m6vec (m6T (screw_matrix r)) (V6 w v) = V6 w (vadd v (cross w r)) /\
  m6vec (screw_matrix r) (V6 t f) = V6 (vadd t (cross r f)) f.
Proof. intros r w v t f. split. exact (screw_twist r w v). exact (screw_wrench r t f). Qed.
Example C15_ex : m6vec (m6T (screw_matrix ex)) (V6 ez vzero) = V6 ez ey.
Proof. rewrite screw_twist. f_equal. la_unfold. f_equal; ring. Qed.
Print Assumptions C15_screw_group.
Print Assumptions C15_screw_power.
Print Assumptions C15_screw_twist_wrench.
