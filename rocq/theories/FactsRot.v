(** Proofs about the rotation and quaternion functions. *)
From Coq Require Import Reals ZArith Lra Psatz Nsatz.
From Verif Require Import LinAlg RealAux Py ModelRot SpecRot FactsReal FactsLinAlg.
Open Scope R_scope.

Ltac rot_unfold :=
  cbv beta iota zeta delta [hat invhat rot q2R quatcomplement quatproduct quatjacobian hamilton qconj qone qpure
    sandwich rotate m4vec m43vec r4_0 r4_1 r4_2 r4_3 r43_0 r43_1 r43_2 r43_3 cross_matrix unit3 unit4] in *; la_unfold.
Ltac rot_ring := intros; la_destruct; rot_unfold; (ring || (f_equal; ring) || (f_equal; field)).
Ltac rot_nsatz := intros; la_destruct; rot_unfold; (nsatz || (f_equal; nsatz)).

(* ---- hat ---- *)
Lemma hat_cross k v : mvec (hat k) v = cross k v. Proof. rot_ring. Qed.
Lemma hat_skew k : skew (hat k). Proof. unfold skew. rot_ring. Qed.
Lemma invhat_hat k : invhat (hat k) = k. Proof. rot_ring. Qed.
Lemma hat_invhat S : skew S -> hat (invhat S) = S.
Proof.
  unfold skew. intros H. destruct S. rot_unfold. injection H. intros.
  apply mat3_eq; simpl; lra.
Qed.
Lemma invhat_skew_part A v :
  cross (invhat A) v = vscale (1/2) (vsub (mvec A v) (mvec (mT A) v)).
Proof. rot_ring. Qed.
Lemma hat_cross_matrix w : hat w = cross_matrix w.
Proof. rot_ring. Qed.

(* ---- rot ---- *)
Lemma mvec_rot k t v :
  mvec (rot k t) v = vadd (vadd v (vscale (sin t) (cross k v))) (vscale (1 - cos t) (cross k (cross k v))).
Proof. rot_ring. Qed.
Lemma rot_rotate k t v : unit3 k -> mvec (rot k t) v = rotate k t v.
Proof.
  intros H. rewrite mvec_rot, cross_cross. red in H. rewrite H. unfold rotate. rot_ring.
Qed.
Lemma rot_unique k t M : unit3 k -> is_rotation_about k t M -> M = rot k t.
Proof. intros H E. apply mvec_ext. intros v. rewrite E, rot_rotate; auto. Qed.
Lemma rot_0 k : rot k 0 = I3.
Proof. unfold rot. rewrite sin_0, cos_0. rot_ring. Qed.
Lemma rot_T k t : mT (rot k t) = rot k (- t).
Proof. unfold rot. rewrite sin_neg, cos_neg. rot_ring. Qed.
Lemma rot_neg k t : rot (vneg k) t = rot k (- t).
Proof. unfold rot. rewrite sin_neg, cos_neg. rot_ring. Qed.
Lemma rot_add k a b : unit3 k -> mmul (rot k a) (rot k b) = rot k (a + b).
Proof.
  intros H. unfold rot. rewrite sin_plus, cos_plus.
  generalize (sin a), (cos a), (sin b), (cos b). intros sa ca sb cb.
  rot_nsatz.
Qed.
Lemma rot_orth k t : unit3 k -> mmul (mT (rot k t)) (rot k t) = I3.
Proof. intros. rewrite rot_T, rot_add by auto. replace (- t + t) with 0 by ring. apply rot_0. Qed.
Lemma rot_det k t : unit3 k -> det (rot k t) = 1.
Proof.
  intros H. replace t with (t/2 + t/2) by field. rewrite <- rot_add by auto.
  rewrite det_mmul, <- (det_mT (rot k (t/2))) at 1. rewrite <- det_mmul, rot_orth by auto. apply det_I.
Qed.
Lemma rot_SO3 k t : unit3 k -> is_SO3 (rot k t).
Proof. intros; split; [apply rot_orth|apply rot_det]; auto. Qed.
Lemma rot_axis k t : mvec (rot k t) k = k.
Proof. rewrite mvec_rot, !cross_self. rot_ring. Qed.
Lemma rot_trace k t : unit3 k -> trace (rot k t) = 1 + 2 * cos t.
Proof. intros H. destruct k as [x y z]. rot_unfold. nsatz. Qed.
Lemma rot_ang_eq k a b : ang_eq a b -> rot k a = rot k b.
Proof. intros H. unfold rot. rewrite (ang_eq_cos _ _ H), (ang_eq_sin _ _ H). reflexivity. Qed.
Lemma invhat_rot k t : unit3 k -> invhat (rot k t) = vscale (sin t) k.
Proof. intros. rot_ring. Qed.
Lemma rot_inj k a b : unit3 k -> rot k a = rot k b -> ang_eq a b.
Proof.
  intros H E. apply cos_sin_ang_eq.
  - apply (f_equal trace) in E. rewrite !rot_trace in E by auto. lra.
  - apply (f_equal invhat) in E. rewrite !invhat_rot in E by auto.
    apply (f_equal (dot k)) in E. rewrite !dot_vscale_r in E. red in H. rewrite H in E. lra.
Qed.
Lemma rot_vec_T k t v : unit3 k -> mvec (mT (rot k t)) (mvec (rot k t) v) = v.
Proof. intros. apply SO3_T_vec, rot_SO3; auto. Qed.

(** Conjugating a rotation by a rotation rotates its axis. *)
Lemma hat_conj A k : is_SO3 A -> mmul A (mmul (hat k) (mT A)) = hat (mvec A k).
Proof.
  intros H. apply mvec_ext. intros v. rewrite !mvec_mmul, !hat_cross.
  rewrite SO3_cross, SO3_vec_T by auto. reflexivity.
Qed.
Lemma rot_conj A k t : is_SO3 A -> mmul A (mmul (rot k t) (mT A)) = rot (mvec A k) t.
Proof.
  intros H. apply mvec_ext. intros v. rewrite !mvec_mmul, !mvec_rot.
  rewrite !mvec_vadd, !mvec_vscale, !SO3_cross, !SO3_vec_T by auto. reflexivity.
Qed.
Lemma rot_mvec_conj A k t v : is_SO3 A -> mvec A (mvec (rot k t) v) = mvec (rot (mvec A k) t) (mvec A v).
Proof.
  intros H. rewrite !mvec_rot, !mvec_vadd, !mvec_vscale, !SO3_cross by auto. reflexivity.
Qed.

(* ---- quaternions ---- *)
Lemma quatproduct_hamilton a b : m4vec (quatproduct a) b = hamilton a b.
Proof. rot_ring. Qed.
Lemma quatcomplement_conj a : quatcomplement a = qconj a.
Proof. rot_ring. Qed.
Lemma hamilton_assoc a b c : hamilton (hamilton a b) c = hamilton a (hamilton b c).
Proof. rot_ring. Qed.
Lemma hamilton_norm a b : qdot (hamilton a b) (hamilton a b) = qdot a a * qdot b b.
Proof. rot_ring. Qed.
Lemma hamilton_one_l a : hamilton qone a = a. Proof. rot_ring. Qed.
Lemma hamilton_one_r a : hamilton a qone = a. Proof. rot_ring. Qed.
Lemma hamilton_conj_r a : hamilton a (qconj a) = Q4 (qdot a a) 0 0 0. Proof. rot_ring. Qed.
Lemma hamilton_conj_l a : hamilton (qconj a) a = Q4 (qdot a a) 0 0 0. Proof. rot_ring. Qed.
Lemma qconj_hamilton a b : qconj (hamilton a b) = hamilton (qconj b) (qconj a). Proof. rot_ring. Qed.

Lemma q2R_sandwich q v : unit4 q -> mvec (q2R q) v = sandwich q v.
Proof. rot_nsatz. Qed.
Lemma q2R_T q : mT (q2R q) = q2R (qconj q). Proof. rot_ring. Qed.
Lemma q2R_neg q : q2R (qneg q) = q2R q. Proof. rot_ring. Qed.
Lemma q2R_one : q2R qone = I3. Proof. rot_ring. Qed.
Lemma unit4_conj q : unit4 q -> unit4 (qconj q).
Proof. rot_nsatz. Qed.
Lemma unit4_hamilton a b : unit4 a -> unit4 b -> unit4 (hamilton a b).
Proof. unfold unit4. intros. rewrite hamilton_norm, H, H0. ring. Qed.
Lemma unit4_neg a : unit4 a -> unit4 (qneg a).
Proof. rot_nsatz. Qed.
Lemma q2R_hamilton a b : unit4 a -> unit4 b -> q2R (hamilton a b) = mmul (q2R a) (q2R b).
Proof.
  intros Ha Hb. apply mvec_ext. intros v. rewrite mvec_mmul.
  rewrite !q2R_sandwich by auto using unit4_hamilton.
  unfold sandwich. rewrite qconj_hamilton.
  assert (E : qpure (qvec (hamilton (hamilton b (qpure v)) (qconj b))) = hamilton (hamilton b (qpure v)) (qconj b)).
  { clear. rot_ring. }
  rewrite E, !hamilton_assoc. reflexivity.
Qed.
Lemma q2R_orth q : unit4 q -> mmul (mT (q2R q)) (q2R q) = I3.
Proof.
  intros H. rewrite q2R_T, <- q2R_hamilton by auto using unit4_conj.
  rewrite hamilton_conj_l. red in H. rewrite H. apply q2R_one.
Qed.
Lemma q2R_det q : unit4 q -> det (q2R q) = 1.
Proof. intros H. destruct q as [a b c d]. rot_unfold. nsatz. Qed.
Lemma q2R_SO3 q : unit4 q -> is_SO3 (q2R q).
Proof. intros; split; auto using q2R_orth, q2R_det. Qed.

Lemma half_unit4 k t : unit3 k -> unit4 (qmk (cos (t/2)) (vscale (sin (t/2)) k)).
Proof. intros H. pose proof (sin_cos_1 (t/2)) as E. destruct k as [x y z]. rot_unfold. nsatz. Qed.
Lemma half_q2R k t : unit3 k -> q2R (qmk (cos (t/2)) (vscale (sin (t/2)) k)) = rot k t.
Proof.
  intros H. unfold rot. rewrite <- (sin_half_sq t), <- (sin_cos_half t).
  generalize (sin (t/2)), (cos (t/2)). intros s c.
  rot_ring.
Qed.

(** a_i a_j = b_i b_j for all i, j means a = b or a = -b *)
Lemma rank1_pm a b :
  q0 a * q0 a = q0 b * q0 b -> q1 a * q1 a = q1 b * q1 b -> q2 a * q2 a = q2 b * q2 b -> q3 a * q3 a = q3 b * q3 b ->
  q0 a * q1 a = q0 b * q1 b -> q0 a * q2 a = q0 b * q2 b -> q0 a * q3 a = q0 b * q3 b ->
  q1 a * q2 a = q1 b * q2 b -> q1 a * q3 a = q1 b * q3 b -> q2 a * q3 a = q2 b * q3 b ->
  a = b \/ a = qneg b.
Proof.
  destruct a as [a0 a1 a2 a3], b as [b0 b1 b2 b3]. la_unfold. intros.
  assert (sq : forall x y : R, x * x = y * y -> x = y \/ x = - y).
  { intros x y E. assert (F : (x - y) * (x + y) = 0) by lra. apply Rmult_integral in F as [F|F]; [left|right]; lra. }
  assert (zz : forall x y : R, x = 0 -> x * x = y * y -> y = 0) by (intros; nra).
  (* pick a non-zero component *)
  assert (K : forall x y u v, x <> 0 -> x = y -> x * u = y * v -> u = v).
  { intros x y u v Hx -> E. apply Rmult_eq_reg_l with y; auto. }
  assert (K' : forall x y u v, x <> 0 -> x = - y -> x * u = y * v -> u = - v).
  { intros x y u v Hx E E'. assert (y <> 0) by lra. apply Rmult_eq_reg_l with x; auto. rewrite E'. rewrite E. ring. }
  assert (z1 : forall x y : R, x * x = y * y -> x = 0 -> y = 0) by (intros; nra).
  destruct (Req_dec a0 0) as [Z0|Z0].
  - pose proof (z1 _ _ H Z0) as W0. subst a0 b0.
    destruct (Req_dec a1 0) as [Z1|Z1].
    + pose proof (z1 _ _ H0 Z1) as W1. subst a1 b1.
      destruct (Req_dec a2 0) as [Z2|Z2].
      * pose proof (z1 _ _ H1 Z2) as W2. subst a2 b2.
        destruct (sq _ _ H2); [left|right]; f_equal; lra.
      * destruct (sq _ _ H1) as [E|E]; [left|right]; f_equal; try lra.
        -- eapply (K a2 b2); eauto. -- eapply (K' a2 b2); eauto.
    + destruct (sq _ _ H0) as [E|E]; [left|right]; f_equal; try lra.
      * eapply (K a1 b1); eauto. * eapply (K a1 b1); eauto.
      * eapply (K' a1 b1); eauto. * eapply (K' a1 b1); eauto.
  - destruct (sq _ _ H) as [E|E]; [left|right]; f_equal; try lra.
    + eapply (K a0 b0); eauto. + eapply (K a0 b0); eauto. + eapply (K a0 b0); eauto.
    + eapply (K' a0 b0); eauto. + eapply (K' a0 b0); eauto. + eapply (K' a0 b0); eauto.
Qed.

Lemma q2R_inj a b : unit4 a -> unit4 b -> q2R a = q2R b -> a = b \/ a = qneg b.
Proof.
  intros Ha Hb E. destruct a as [a0 a1 a2 a3], b as [b0 b1 b2 b3].
  rot_unfold. injection E. intros. apply rank1_pm; simpl; lra.
Qed.

(* ---- the algebra of SO(3) ---- *)
(** 4 q q^T read off a rotation matrix has rank one. *)
Section SO3alg.
Context (A : mat3) (HA : is_SO3 A).
Local Notation w0 := (m21 A - m12 A).
Local Notation w1 := (m02 A - m20 A).
Local Notation w2 := (m10 A - m01 A).
Local Notation t0 := (1 + m00 A + m11 A + m22 A).
Local Notation t1 := (1 + m00 A - m11 A - m22 A).
Local Notation t2 := (1 - m00 A + m11 A - m22 A).
Local Notation t3 := (1 - m00 A - m11 A + m22 A).
Local Notation s01 := (m01 A + m10 A).
Local Notation s02 := (m02 A + m20 A).
Local Notation s12 := (m12 A + m21 A).
Ltac go := pose proof (SO3_eqs A HA) as ((?&?&?)&(?&?&?)&(?&?&?)&(?&?&?));
  pose proof (SO3_cof A HA) as (?&?&?&?&?&?&?&?&?); lra.
Lemma so_t0t1 : t0 * t1 = w0 * w0. Proof. go. Qed.
Lemma so_t0t2 : t0 * t2 = w1 * w1. Proof. go. Qed.
Lemma so_t0t3 : t0 * t3 = w2 * w2. Proof. go. Qed.
Lemma so_t1t2 : t1 * t2 = s01 * s01. Proof. go. Qed.
Lemma so_t1t3 : t1 * t3 = s02 * s02. Proof. go. Qed.
Lemma so_t2t3 : t2 * t3 = s12 * s12. Proof. go. Qed.
Lemma so_t0s01 : t0 * s01 = w0 * w1. Proof. go. Qed.
Lemma so_t0s02 : t0 * s02 = w0 * w2. Proof. go. Qed.
Lemma so_t0s12 : t0 * s12 = w1 * w2. Proof. go. Qed.
Lemma so_t1s12 : t1 * s12 = s01 * s02. Proof. go. Qed.
Lemma so_t1w1 : t1 * w1 = w0 * s01. Proof. go. Qed.
Lemma so_t1w2 : t1 * w2 = w0 * s02. Proof. go. Qed.
Lemma so_t2s02 : t2 * s02 = s01 * s12. Proof. go. Qed.
Lemma so_t2w0 : t2 * w0 = w1 * s01. Proof. go. Qed.
Lemma so_t2w2 : t2 * w2 = w1 * s12. Proof. go. Qed.
Lemma so_t3s01 : t3 * s01 = s02 * s12. Proof. go. Qed.
Lemma so_t3w0 : t3 * w0 = w2 * s02. Proof. go. Qed.
Lemma so_t3w1 : t3 * w1 = w2 * s12. Proof. go. Qed.
Lemma so_circle : (w0*w0 + w1*w1 + w2*w2) / 4 + (trace A - 1) / 2 * ((trace A - 1) / 2) = 1.
Proof. unfold trace. go. Qed.
Lemma so_nonneg : 0 <= t0 /\ 0 <= t1 /\ 0 <= t2 /\ 0 <= t3.
Proof.
  pose proof so_t0t1; pose proof so_t0t2; pose proof so_t0t3; pose proof so_t1t2; pose proof so_t1t3; pose proof so_t2t3.
  assert (P: forall x y z : R, x * y = z * z -> 0 < x -> 0 <= y) by (intros; nra).
  assert (N: forall x y z : R, x * y = z * z -> x < 0 -> y <= 0) by (intros; nra).
  destruct (Rtotal_order t0 0) as [L|[L|L]].
  - pose proof (N _ _ _ H L). pose proof (N _ _ _ H0 L). pose proof (N _ _ _ H1 L). lra.
  - destruct (Rtotal_order t1 0) as [L1|[L1|L1]].
    + pose proof (N _ _ _ H2 L1). pose proof (N _ _ _ H3 L1). lra.
    + destruct (Rtotal_order t2 0) as [L2|[L2|L2]].
      * pose proof (N _ _ _ H4 L2). lra.
      * lra.
      * pose proof (P _ _ _ H4 L2). lra.
    + pose proof (P _ _ _ H2 L1). pose proof (P _ _ _ H3 L1). lra.
  - pose proof (P _ _ _ H L). pose proof (P _ _ _ H0 L). pose proof (P _ _ _ H1 L). lra.
Qed.
End SO3alg.

(** A quaternion with 4 q q^T as given by A is a unit quaternion whose rotation is A. *)
Lemma q_of_SO3 A q :
  4 * (q0 q * q0 q) = 1 + m00 A + m11 A + m22 A ->
  4 * (q1 q * q1 q) = 1 + m00 A - m11 A - m22 A ->
  4 * (q2 q * q2 q) = 1 - m00 A + m11 A - m22 A ->
  4 * (q3 q * q3 q) = 1 - m00 A - m11 A + m22 A ->
  4 * (q0 q * q1 q) = m21 A - m12 A -> 4 * (q0 q * q2 q) = m02 A - m20 A -> 4 * (q0 q * q3 q) = m10 A - m01 A ->
  4 * (q1 q * q2 q) = m01 A + m10 A -> 4 * (q1 q * q3 q) = m02 A + m20 A -> 4 * (q2 q * q3 q) = m12 A + m21 A ->
  unit4 q /\ q2R q = A.
Proof.
  intros. destruct q as [a b c d]. destruct A. rot_unfold. split. lra. apply mat3_eq; simpl; lra.
Qed.

Lemma R2q_correct A : is_SO3 A -> exists q, R2q A = Ok (Fin q) /\ unit4 q /\ q2R q = A.
Proof.
  intros H. unfold R2q.
  pose proof (so_nonneg A H) as (N0&N1&N2&N3).
  assert (MS : forall x, 0 < x -> math_sqrt x = Ok (sqrt x) /\ 0 < sqrt x /\ sqrt x * sqrt x = x).
  { intros x Hx. unfold math_sqrt. rewrite Rltb_ge by lra. split; auto. split. apply sqrt_lt_R0; auto. apply sqrt_sqrt; lra. }
  assert (DIV : forall r x y tx, 0 < r -> r * r = tx -> x * y = 0 \/ True -> True) by auto.
  unfold trace.
  destruct (Rltb 0 (m00 A + m11 A + m22 A)) eqn:C0.
  - apply Rltb_true in C0. destruct (MS (m00 A + m11 A + m22 A + 1)) as (E&Hp&Hs); [lra|].
    rewrite E. simpl. set (r := sqrt (m00 A + m11 A + m22 A + 1)) in *. clearbody r.
    destruct (Reqb (2 * r) 0) eqn:Z; [apply Reqb_true in Z; lra|].
    eexists. split; [reflexivity|].
    apply q_of_SO3; simpl.
    + lra.
    + transitivity (((m21 A - m12 A)*(m21 A - m12 A))/(r*r)); [field; lra|]. rewrite Hs, <- (so_t0t1 A H). field. lra.
    + transitivity (((m02 A - m20 A)*(m02 A - m20 A))/(r*r)); [field; lra|]. rewrite Hs, <- (so_t0t2 A H). field. lra.
    + transitivity (((m10 A - m01 A)*(m10 A - m01 A))/(r*r)); [field; lra|]. rewrite Hs, <- (so_t0t3 A H). field. lra.
    + field; lra.
    + field; lra.
    + field; lra.
    + transitivity (((m21 A - m12 A)*(m02 A - m20 A))/(r*r)); [field; lra|]. rewrite Hs, <- (so_t0s01 A H). field. lra.
    + transitivity (((m21 A - m12 A)*(m10 A - m01 A))/(r*r)); [field; lra|]. rewrite Hs, <- (so_t0s02 A H). field. lra.
    + transitivity (((m02 A - m20 A)*(m10 A - m01 A))/(r*r)); [field; lra|]. rewrite Hs, <- (so_t0s12 A H). field. lra.
  - apply Rltb_false in C0.
    destruct (Rltb (m11 A) (m00 A) && Rltb (m22 A) (m00 A))%bool eqn:C1.
    + apply andb_prop in C1 as [C1 C1']. apply Rltb_true in C1, C1'.
      assert (0 < 1 + m00 A - m11 A - m22 A) by lra.
      destruct (MS _ H0) as (E&Hp&Hs). rewrite E. simpl. set (r := sqrt (1 + m00 A - m11 A - m22 A)) in *. clearbody r.
      destruct (Reqb (2 * r) 0) eqn:Z; [apply Reqb_true in Z; lra|].
      eexists. split; [reflexivity|].
      apply q_of_SO3; simpl.
      * transitivity (((m21 A - m12 A)*(m21 A - m12 A))/(r*r)); [field; lra|]. rewrite Hs, <- (so_t0t1 A H). field. lra.
      * lra.
      * transitivity (((m01 A + m10 A)*(m01 A + m10 A))/(r*r)); [field; lra|]. rewrite Hs, <- (so_t1t2 A H). field. lra.
      * transitivity (((m02 A + m20 A)*(m02 A + m20 A))/(r*r)); [field; lra|]. rewrite Hs, <- (so_t1t3 A H). field. lra.
      * field; lra.
      * transitivity (((m21 A - m12 A)*(m01 A + m10 A))/(r*r)); [field; lra|]. rewrite Hs, <- (so_t1w1 A H). field. lra.
      * transitivity (((m21 A - m12 A)*(m02 A + m20 A))/(r*r)); [field; lra|]. rewrite Hs, <- (so_t1w2 A H). field. lra.
      * field; lra.
      * field; lra.
      * transitivity (((m01 A + m10 A)*(m02 A + m20 A))/(r*r)); [field; lra|]. rewrite Hs, <- (so_t1s12 A H). field. lra.
    + assert (C1' : m00 A <= m11 A \/ m00 A <= m22 A).
      { apply Bool.andb_false_iff in C1 as [C1|C1]; apply Rltb_false in C1; auto. }
      clear C1. destruct (Rltb (m22 A) (m11 A)) eqn:C2.
      * apply Rltb_true in C2.
        assert (0 < 1 - m00 A + m11 A - m22 A) by lra.
        destruct (MS _ H0) as (E&Hp&Hs). rewrite E. simpl. set (r := sqrt (1 - m00 A + m11 A - m22 A)) in *. clearbody r.
        destruct (Reqb (2 * r) 0) eqn:Z; [apply Reqb_true in Z; lra|].
        eexists. split; [reflexivity|].
        apply q_of_SO3; simpl.
        -- transitivity (((m02 A - m20 A)*(m02 A - m20 A))/(r*r)); [field; lra|]. rewrite Hs, <- (so_t0t2 A H). field. lra.
        -- transitivity (((m01 A + m10 A)*(m01 A + m10 A))/(r*r)); [field; lra|]. rewrite Hs, <- (so_t1t2 A H). field. lra.
        -- lra.
        -- transitivity (((m12 A + m21 A)*(m12 A + m21 A))/(r*r)); [field; lra|]. rewrite Hs, <- (so_t2t3 A H). field. lra.
        -- transitivity (((m02 A - m20 A)*(m01 A + m10 A))/(r*r)); [field; lra|]. rewrite Hs, <- (so_t2w0 A H). field. lra.
        -- field; lra.
        -- transitivity (((m02 A - m20 A)*(m12 A + m21 A))/(r*r)); [field; lra|]. rewrite Hs, <- (so_t2w2 A H). field. lra.
        -- field; lra.
        -- transitivity (((m01 A + m10 A)*(m12 A + m21 A))/(r*r)); [field; lra|]. rewrite Hs, <- (so_t2s02 A H). field. lra.
        -- field; lra.
      * apply Rltb_false in C2.
        assert (0 < 1 - m00 A - m11 A + m22 A) by lra.
        destruct (MS _ H0) as (E&Hp&Hs). rewrite E. simpl. set (r := sqrt (1 - m00 A - m11 A + m22 A)) in *. clearbody r.
        destruct (Reqb (2 * r) 0) eqn:Z; [apply Reqb_true in Z; lra|].
        eexists. split; [reflexivity|].
        apply q_of_SO3; simpl.
        -- transitivity (((m10 A - m01 A)*(m10 A - m01 A))/(r*r)); [field; lra|]. rewrite Hs, <- (so_t0t3 A H). field. lra.
        -- transitivity (((m02 A + m20 A)*(m02 A + m20 A))/(r*r)); [field; lra|]. rewrite Hs, <- (so_t1t3 A H). field. lra.
        -- transitivity (((m12 A + m21 A)*(m12 A + m21 A))/(r*r)); [field; lra|]. rewrite Hs, <- (so_t2t3 A H). field. lra.
        -- lra.
        -- transitivity (((m10 A - m01 A)*(m02 A + m20 A))/(r*r)); [field; lra|]. rewrite Hs, <- (so_t3w0 A H). field. lra.
        -- transitivity (((m10 A - m01 A)*(m12 A + m21 A))/(r*r)); [field; lra|]. rewrite Hs, <- (so_t3w1 A H). field. lra.
        -- field; lra.
        -- transitivity (((m02 A + m20 A)*(m12 A + m21 A))/(r*r)); [field; lra|]. rewrite Hs, <- (so_t3s01 A H). field. lra.
        -- field; lra.
        -- field; lra.
Qed.

Lemma R2q_q2R q : unit4 q -> R2q (q2R q) = Ok (Fin q) \/ R2q (q2R q) = Ok (Fin (qneg q)).
Proof.
  intros H. destruct (R2q_correct (q2R q) (q2R_SO3 q H)) as (q' & E & U & Eq).
  destruct (q2R_inj _ _ U H Eq) as [->| ->]; auto.
Qed.

(** Euler's theorem: every rotation matrix is a rotation about some unit axis. *)
Lemma quat_axis_angle q : unit4 q -> exists k t, unit3 k /\ 0 <= t <= 2 * PI /\
   q = qmk (cos (t/2)) (vscale (sin (t/2)) k).
Proof.
  intros H. set (n := norm (qvec q)).
  assert (Hn : n * n + q0 q * q0 q = 1).
  { unfold n. rewrite norm_sq. destruct q. rot_unfold. lra. }
  pose proof (atan2_unit _ _ Hn) as [Hc Hs].
  assert (Hr : 0 <= atan2 n (q0 q) <= PI).
  { split. apply atan2_pos_sin_nonneg. apply norm_nonneg. apply atan2_range. }
  destruct (Req_dec n 0) as [Z|Z].
  - exists ez, (2 * atan2 n (q0 q)). split. rot_unfold; ring. split. lra.
    replace (2 * atan2 n (q0 q) / 2) with (atan2 n (q0 q)) by field. rewrite Hc, Hs, Z.
    apply norm_zero in Z. destruct q. rot_unfold. injection Z; intros; subst. apply quat_eq; simpl; ring.
  - exists (vdiv (qvec q) n), (2 * atan2 n (q0 q)). split; [|split].
    + red. rewrite vdiv_scale, dot_vscale_l, dot_vscale_r, <- norm_sq. fold n. field. auto.
    + lra.
    + replace (2 * atan2 n (q0 q) / 2) with (atan2 n (q0 q)) by field. rewrite Hc, Hs.
      destruct q. rot_unfold. apply quat_eq; simpl; try reflexivity; field; auto.
Qed.

Lemma SO3_is_rot A : is_SO3 A -> exists k t, unit3 k /\ 0 <= t <= PI /\ A = rot k t.
Proof.
  intros H. destruct (R2q_correct A H) as (q & _ & U & <-).
  destruct (quat_axis_angle q U) as (k & t & Hk & Ht & ->).
  rewrite half_q2R by auto.
  destruct (Rle_dec t PI).
  - exists k, t. repeat split; auto; lra.
  - exists (vneg k), (2 * PI - t). split. red. rewrite dot_vneg_l, dot_vneg_r. red in Hk. lra.
    split. lra. rewrite rot_neg. apply rot_ang_eq. exists 1%Z. lra.
Qed.
