(** Lemmas about [LinAlg]. *)
From Coq Require Import Reals Lra Psatz.
From Verif Require Import LinAlg FactsReal.
Open Scope R_scope.

Ltac la_unfold :=
  cbv beta iota zeta delta [vadd vsub vneg vscale dot cross norm2 vdiv madd msub mscale mmul mvec mT trace det
    frob2 col0 col1 col2 of_cols qvec qmk qdot qscale qadd qneg qdiv I3 mzero vzero ex ey ez
    vx vy vz m00 m01 m02 m10 m11 m12 m20 m21 m22 q0 q1 q2 q3] in *.
Ltac la_destruct :=
  repeat match goal with
  | v : vec3 |- _ => destruct v
  | M : mat3 |- _ => destruct M
  | q : quat |- _ => destruct q
  end.
(** Componentwise equality, each closed by ring. *)
Ltac la_ring := intros; la_destruct; la_unfold; (ring || (f_equal; ring)).

Lemma vec3_eq a b : vx a = vx b -> vy a = vy b -> vz a = vz b -> a = b.
Proof. destruct a, b; simpl; intros; subst; reflexivity. Qed.
Lemma mat3_eq A B :
  m00 A = m00 B -> m01 A = m01 B -> m02 A = m02 B ->
  m10 A = m10 B -> m11 A = m11 B -> m12 A = m12 B ->
  m20 A = m20 B -> m21 A = m21 B -> m22 A = m22 B -> A = B.
Proof. destruct A, B; simpl; intros; subst; reflexivity. Qed.
Lemma quat_eq a b : q0 a = q0 b -> q1 a = q1 b -> q2 a = q2 b -> q3 a = q3 b -> a = b.
Proof. destruct a, b; simpl; intros; subst; reflexivity. Qed.

(* ---- vectors ---- *)
Lemma vadd_comm a b : vadd a b = vadd b a. Proof. la_ring. Qed.
Lemma vadd_assoc a b c : vadd (vadd a b) c = vadd a (vadd b c). Proof. la_ring. Qed.
Lemma vadd_0_r a : vadd a vzero = a. Proof. la_ring. Qed.
Lemma vadd_0_l a : vadd vzero a = a. Proof. la_ring. Qed.
Lemma vsub_self a : vsub a a = vzero. Proof. la_ring. Qed.
Lemma vsub_vadd a b : vadd (vsub a b) b = a. Proof. la_ring. Qed.
Lemma vadd_vsub a b : vsub (vadd a b) b = a. Proof. la_ring. Qed.
Lemma vadd_vsub_l a b : vsub (vadd a b) a = b. Proof. la_ring. Qed.
Lemma vscale_0 a : vscale 0 a = vzero. Proof. la_ring. Qed.
Lemma vscale_1 a : vscale 1 a = a. Proof. la_ring. Qed.
Lemma vscale_vadd s a b : vscale s (vadd a b) = vadd (vscale s a) (vscale s b). Proof. la_ring. Qed.
Lemma vscale_vscale s t a : vscale s (vscale t a) = vscale (s * t) a. Proof. la_ring. Qed.
Lemma vneg_vneg a : vneg (vneg a) = a. Proof. la_ring. Qed.
Lemma dot_comm a b : dot a b = dot b a. Proof. la_ring. Qed.
Lemma dot_vadd_l a b c : dot (vadd a b) c = dot a c + dot b c. Proof. la_ring. Qed.
Lemma dot_vadd_r a b c : dot a (vadd b c) = dot a b + dot a c. Proof. la_ring. Qed.
Lemma dot_vsub_l a b c : dot (vsub a b) c = dot a c - dot b c. Proof. la_ring. Qed.
Lemma dot_vsub_r a b c : dot a (vsub b c) = dot a b - dot a c. Proof. la_ring. Qed.
Lemma dot_vscale_l s a b : dot (vscale s a) b = s * dot a b. Proof. la_ring. Qed.
Lemma dot_vscale_r s a b : dot a (vscale s b) = s * dot a b. Proof. la_ring. Qed.
Lemma dot_vneg_l a b : dot (vneg a) b = - dot a b. Proof. la_ring. Qed.
Lemma dot_vneg_r a b : dot a (vneg b) = - dot a b. Proof. la_ring. Qed.
Lemma cross_anti a b : cross a b = vneg (cross b a). Proof. la_ring. Qed.
Lemma cross_self a : cross a a = vzero. Proof. la_ring. Qed.
Lemma dot_cross_l a b : dot a (cross a b) = 0. Proof. la_ring. Qed.
Lemma dot_cross_r a b : dot b (cross a b) = 0. Proof. la_ring. Qed.
Lemma dot_cross_cyc a b c : dot a (cross b c) = dot b (cross c a). Proof. la_ring. Qed.
Lemma cross_vadd_r a b c : cross a (vadd b c) = vadd (cross a b) (cross a c). Proof. la_ring. Qed.
Lemma cross_vadd_l a b c : cross (vadd a b) c = vadd (cross a c) (cross b c). Proof. la_ring. Qed.
Lemma cross_vscale_r s a b : cross a (vscale s b) = vscale s (cross a b). Proof. la_ring. Qed.
Lemma cross_vscale_l s a b : cross (vscale s a) b = vscale s (cross a b). Proof. la_ring. Qed.
Lemma cross_cross a b c : cross a (cross b c) = vsub (vscale (dot a c) b) (vscale (dot a b) c). Proof. la_ring. Qed.
Lemma lagrange a b : norm2 (cross a b) = norm2 a * norm2 b - dot a b * dot a b. Proof. la_ring. Qed.
Lemma vdiv_scale a s : vdiv a s = vscale (/ s) a. Proof. intros; la_destruct; la_unfold; unfold Rdiv; f_equal; ring. Qed.

Lemma norm2_nonneg a : 0 <= norm2 a.
Proof. la_destruct; la_unfold. nra. Qed.
Lemma dot_self_nonneg a : 0 <= dot a a.
Proof. exact (norm2_nonneg a). Qed.
Lemma norm_nonneg a : 0 <= norm a.
Proof. apply sqrt_pos. Qed.
Lemma norm_sq a : norm a * norm a = dot a a.
Proof. unfold norm. apply sqrt_sqrt. apply norm2_nonneg. Qed.
Lemma norm2_zero a : norm2 a = 0 -> a = vzero.
Proof. destruct a as [x y z]; la_unfold. intros. f_equal; nra. Qed.
Lemma norm_zero a : norm a = 0 -> a = vzero.
Proof. intros. apply norm2_zero. unfold norm2. rewrite <- norm_sq, H. ring. Qed.
Lemma norm_vzero : norm vzero = 0.
Proof. unfold norm. replace (norm2 vzero) with 0 by la_ring. apply sqrt_0. Qed.
Lemma norm_pos a : a <> vzero -> 0 < norm a.
Proof. intros. destruct (Rle_lt_or_eq_dec 0 (norm a)); auto using norm_nonneg. exfalso. apply H, norm_zero. lra. Qed.
Lemma norm_unit a : unit3 a -> norm a = 1.
Proof. unfold unit3, norm, norm2. intros ->. apply sqrt_1. Qed.
Lemma norm_1_unit a : norm a = 1 -> unit3 a.
Proof. unfold unit3. intros H. rewrite <- norm_sq, H. ring. Qed.
Lemma norm_vscale s a : norm (vscale s a) = Rabs s * norm a.
Proof.
  unfold norm, norm2. rewrite dot_vscale_l, dot_vscale_r.
  replace (s * (s * dot a a)) with ((s*s) * dot a a) by ring.
  rewrite sqrt_mult_alt by nra. f_equal. apply (sqrt_Rsqr_abs s).
Qed.
Lemma norm_vneg a : norm (vneg a) = norm a.
Proof. unfold norm, norm2. f_equal. la_ring. Qed.
Lemma norm_vsub_sym a b : norm (vsub a b) = norm (vsub b a).
Proof. unfold norm, norm2. f_equal. la_ring. Qed.
Lemma norm_eq_of_dot a b : dot a a = dot b b -> norm a = norm b.
Proof. unfold norm, norm2. congruence. Qed.

Lemma cauchy_schwarz a b : dot a b * dot a b <= dot a a * dot b b.
Proof. pose proof (norm2_nonneg (cross a b)). rewrite lagrange in H. unfold norm2 in H. lra. Qed.
Lemma dot_le_norm a b : dot a b <= norm a * norm b.
Proof.
  pose proof (cauchy_schwarz a b). rewrite <- !norm_sq in H.
  pose proof (norm_nonneg a). pose proof (norm_nonneg b).
  apply Rsqr_incr_0_var; unfold Rsqr; nra.
Qed.
Lemma dot_ge_norm a b : - (norm a * norm b) <= dot a b.
Proof. pose proof (dot_le_norm (vneg a) b). rewrite dot_vneg_l, norm_vneg in H. lra. Qed.
Lemma norm_triangle a b : norm (vadd a b) <= norm a + norm b.
Proof.
  apply Rsqr_incr_0_var; unfold Rsqr.
  - rewrite norm_sq. pose proof (dot_le_norm a b). pose proof (norm_sq a). pose proof (norm_sq b).
    rewrite dot_vadd_l, !dot_vadd_r, (dot_comm b a). nra.
  - pose proof (norm_nonneg a). pose proof (norm_nonneg b). lra.
Qed.
Lemma abs_vx_le_norm a : Rabs (vx a) <= norm a.
Proof. rewrite <- (Rabs_right (norm a)) by (apply Rle_ge, norm_nonneg). apply Rsqr_le_abs_0. unfold Rsqr. rewrite norm_sq. la_destruct; la_unfold; nra. Qed.
Lemma abs_vy_le_norm a : Rabs (vy a) <= norm a.
Proof. rewrite <- (Rabs_right (norm a)) by (apply Rle_ge, norm_nonneg). apply Rsqr_le_abs_0. unfold Rsqr. rewrite norm_sq. la_destruct; la_unfold; nra. Qed.
Lemma abs_vz_le_norm a : Rabs (vz a) <= norm a.
Proof. rewrite <- (Rabs_right (norm a)) by (apply Rle_ge, norm_nonneg). apply Rsqr_le_abs_0. unfold Rsqr. rewrite norm_sq. la_destruct; la_unfold; nra. Qed.

(* ---- matrices ---- *)
Lemma mmul_assoc A B C : mmul (mmul A B) C = mmul A (mmul B C). Proof. la_ring. Qed.
Lemma mmul_I_l A : mmul I3 A = A. Proof. la_ring. Qed.
Lemma mmul_I_r A : mmul A I3 = A. Proof. la_ring. Qed.
Lemma mvec_I v : mvec I3 v = v. Proof. la_ring. Qed.
Lemma mvec_mmul A B v : mvec (mmul A B) v = mvec A (mvec B v). Proof. la_ring. Qed.
Lemma mvec_vadd A a b : mvec A (vadd a b) = vadd (mvec A a) (mvec A b). Proof. la_ring. Qed.
Lemma mvec_vsub A a b : mvec A (vsub a b) = vsub (mvec A a) (mvec A b). Proof. la_ring. Qed.
Lemma mvec_vscale A s a : mvec A (vscale s a) = vscale s (mvec A a). Proof. la_ring. Qed.
Lemma mvec_vneg A a : mvec A (vneg a) = vneg (mvec A a). Proof. la_ring. Qed.
Lemma mvec_vzero A : mvec A vzero = vzero. Proof. la_ring. Qed.
Lemma mT_mmul A B : mT (mmul A B) = mmul (mT B) (mT A). Proof. la_ring. Qed.
Lemma mT_mT A : mT (mT A) = A. Proof. la_ring. Qed.
Lemma mT_I : mT I3 = I3. Proof. reflexivity. Qed.
Lemma det_mmul A B : det (mmul A B) = det A * det B. Proof. la_ring. Qed.
Lemma det_mT A : det (mT A) = det A. Proof. la_ring. Qed.
Lemma det_I : det I3 = 1. Proof. la_ring. Qed.
Lemma dot_mvec_l A a b : dot (mvec A a) b = dot a (mvec (mT A) b). Proof. la_ring. Qed.
Lemma mvec_ext A B : (forall v, mvec A v = mvec B v) -> A = B.
Proof.
  intros H. pose proof (H ex) as Hx. pose proof (H ey) as Hy. pose proof (H ez) as Hz.
  la_destruct; la_unfold. injection Hx; injection Hy; injection Hz; intros. apply mat3_eq; simpl; lra.
Qed.
(** A matrix is determined by its action on a basis. *)
Lemma mvec_ext_basis A B :
  mvec A ex = mvec B ex -> mvec A ey = mvec B ey -> mvec A ez = mvec B ez -> A = B.
Proof.
  intros Hx Hy Hz. la_destruct; la_unfold. injection Hx; injection Hy; injection Hz; intros. apply mat3_eq; simpl; lra.
Qed.

(* ---- rotations ---- *)
Lemma SO3_I : is_SO3 I3.
Proof. split; la_ring. Qed.
Lemma SO3_mmul A B : is_SO3 A -> is_SO3 B -> is_SO3 (mmul A B).
Proof.
  intros [Ha Da] [Hb Db]. split.
  - rewrite mT_mmul, mmul_assoc, <- (mmul_assoc (mT A)), Ha, mmul_I_l. exact Hb.
  - rewrite det_mmul, Da, Db. ring.
Qed.

(** adjugate *)
Definition adj (A : mat3) : mat3 :=
  M3 (m11 A * m22 A - m12 A * m21 A) (m02 A * m21 A - m01 A * m22 A) (m01 A * m12 A - m02 A * m11 A)
     (m12 A * m20 A - m10 A * m22 A) (m00 A * m22 A - m02 A * m20 A) (m02 A * m10 A - m00 A * m12 A)
     (m10 A * m21 A - m11 A * m20 A) (m01 A * m20 A - m00 A * m21 A) (m00 A * m11 A - m01 A * m10 A).
Lemma mmul_adj_r A : mmul A (adj A) = mscale (det A) I3.
Proof. unfold adj; la_ring. Qed.
Lemma mmul_adj_l A : mmul (adj A) A = mscale (det A) I3.
Proof. unfold adj; la_ring. Qed.
Lemma mscale_1 A : mscale 1 A = A. Proof. la_ring. Qed.

Lemma SO3_adj A : is_SO3 A -> mT A = adj A.
Proof.
  intros [H D]. pose proof (mmul_adj_r A) as E. rewrite D, mscale_1 in E.
  rewrite <- (mmul_I_r (mT A)), <- E, <- mmul_assoc, H, mmul_I_l. reflexivity.
Qed.
Lemma SO3_mul_T A : is_SO3 A -> mmul A (mT A) = I3.
Proof. intros H. rewrite (SO3_adj A H), mmul_adj_r. destruct H as [_ ->]. apply mscale_1. Qed.
Lemma SO3_T_mul A : is_SO3 A -> mmul (mT A) A = I3.
Proof. intros []; auto. Qed.
Lemma SO3_T A : is_SO3 A -> is_SO3 (mT A).
Proof. intros H. split. - rewrite mT_mT. apply SO3_mul_T; auto. - rewrite det_mT. apply H. Qed.
Lemma SO3_T_vec A v : is_SO3 A -> mvec (mT A) (mvec A v) = v.
Proof. intros [H _]. rewrite <- mvec_mmul, H. apply mvec_I. Qed.
Lemma SO3_vec_T A v : is_SO3 A -> mvec A (mvec (mT A) v) = v.
Proof. intros H. rewrite <- mvec_mmul, SO3_mul_T by auto. apply mvec_I. Qed.
Lemma SO3_dot A a b : is_SO3 A -> dot (mvec A a) (mvec A b) = dot a b.
Proof. intros H. rewrite dot_mvec_l, SO3_T_vec; auto. Qed.
Lemma SO3_norm A a : is_SO3 A -> norm (mvec A a) = norm a.
Proof. intros. apply norm_eq_of_dot, SO3_dot; auto. Qed.
Lemma SO3_unit A a : is_SO3 A -> unit3 a -> unit3 (mvec A a).
Proof. unfold unit3. intros. rewrite SO3_dot; auto. Qed.

(** Rotations commute with the cross product. *)
Lemma cof_cross A a b : mvec (mT (adj A)) (cross a b) = cross (mvec A a) (mvec A b).
Proof. unfold adj; la_ring. Qed.
Lemma SO3_cross A a b : is_SO3 A -> mvec A (cross a b) = cross (mvec A a) (mvec A b).
Proof. intros H. rewrite <- cof_cross, <- SO3_adj by auto. rewrite mT_mT. reflexivity. Qed.

(** The scalar equations of a rotation matrix. *)
Lemma SO3_eqs A : is_SO3 A ->
  (m00 A * m00 A + m10 A * m10 A + m20 A * m20 A = 1 /\
   m01 A * m01 A + m11 A * m11 A + m21 A * m21 A = 1 /\
   m02 A * m02 A + m12 A * m12 A + m22 A * m22 A = 1) /\
  (m00 A * m00 A + m01 A * m01 A + m02 A * m02 A = 1 /\
   m10 A * m10 A + m11 A * m11 A + m12 A * m12 A = 1 /\
   m20 A * m20 A + m21 A * m21 A + m22 A * m22 A = 1) /\
  (m00 A * m01 A + m10 A * m11 A + m20 A * m21 A = 0 /\
   m00 A * m02 A + m10 A * m12 A + m20 A * m22 A = 0 /\
   m01 A * m02 A + m11 A * m12 A + m21 A * m22 A = 0) /\
  (m00 A * m10 A + m01 A * m11 A + m02 A * m12 A = 0 /\
   m00 A * m20 A + m01 A * m21 A + m02 A * m22 A = 0 /\
   m10 A * m20 A + m11 A * m21 A + m12 A * m22 A = 0).
Proof.
  intros H. pose proof (SO3_mul_T A H) as H1. destruct H as [H0 _].
  destruct A. la_unfold. injection H0. injection H1. intros. repeat split; lra.
Qed.
Lemma SO3_cof A : is_SO3 A ->
  m00 A = m11 A * m22 A - m12 A * m21 A /\ m10 A = m02 A * m21 A - m01 A * m22 A /\ m20 A = m01 A * m12 A - m02 A * m11 A /\
  m01 A = m12 A * m20 A - m10 A * m22 A /\ m11 A = m00 A * m22 A - m02 A * m20 A /\ m21 A = m02 A * m10 A - m00 A * m12 A /\
  m02 A = m10 A * m21 A - m11 A * m20 A /\ m12 A = m01 A * m20 A - m00 A * m21 A /\ m22 A = m00 A * m11 A - m01 A * m10 A.
Proof.
  intros H. pose proof (SO3_adj A H) as E. destruct A. unfold adj in E. la_unfold. injection E. intros. repeat split; lra.
Qed.
