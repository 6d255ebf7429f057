(** Norms of vectors and matrices: monotonicity, triangle inequality and submultiplicativity of the
    Frobenius norm. *)
From Coq Require Import Reals Lra.
From Verif Require Import LinAlg RealAux FactsReal FactsLinAlg.
Open Scope R_scope.

(** [np.linalg.norm] of a matrix *)
Definition frob (A : mat3) : R := sqrt (frob2 A).
Definition row0 (A : mat3) : vec3 := V3 (m00 A) (m01 A) (m02 A).
Definition row1 (A : mat3) : vec3 := V3 (m10 A) (m11 A) (m12 A).
Definition row2 (A : mat3) : vec3 := V3 (m20 A) (m21 A) (m22 A).
Definition rnorms (A : mat3) : vec3 := V3 (norm (row0 A)) (norm (row1 A)) (norm (row2 A)).
Definition vabs (a : vec3) : vec3 := V3 (Rabs (vx a)) (Rabs (vy a)) (Rabs (vz a)).
Definition mabs (A : mat3) : mat3 :=
  M3 (Rabs (m00 A)) (Rabs (m01 A)) (Rabs (m02 A)) (Rabs (m10 A)) (Rabs (m11 A)) (Rabs (m12 A))
     (Rabs (m20 A)) (Rabs (m21 A)) (Rabs (m22 A)).
Definition vle (a b : vec3) : Prop := vx a <= vx b /\ vy a <= vy b /\ vz a <= vz b.
Definition mle (A B : mat3) : Prop := vle (row0 A) (row0 B) /\ vle (row1 A) (row1 B) /\ vle (row2 A) (row2 B).
Definition vconst (c : R) : vec3 := V3 c c c.
Definition mconst (c : R) : mat3 := M3 c c c c c c c c c.

Lemma sq_mono a b : 0 <= a -> a <= b -> a * a <= b * b.
Proof. intros. apply Rmult_le_compat; lra. Qed.

Lemma norm_vabs a : norm (vabs a) = norm a.
Proof.
  unfold norm, norm2, dot, vabs. cbn [vx vy vz]. f_equal.
  rewrite <- !Rabs_mult. rewrite !Rabs_pos_eq by (apply Rle_0_sqr). reflexivity.
Qed.

Lemma norm_mono a b : vle (vabs a) b -> norm a <= norm b.
Proof.
  intros (H0 & H1 & H2). rewrite <- (norm_vabs a). unfold norm. apply sqrt_le_1_alt.
  unfold norm2, dot. revert H0 H1 H2. unfold vabs. cbn [vx vy vz]. intros.
  pose proof (sq_mono _ _ (Rabs_pos (vx a)) H0). pose proof (sq_mono _ _ (Rabs_pos (vy a)) H1).
  pose proof (sq_mono _ _ (Rabs_pos (vz a)) H2). lra.
Qed.

Lemma norm_vconst c : 0 <= c -> norm (vconst c) <= 2 * c.
Proof.
  intros H. unfold norm. apply Rsqr_incr_0_var; [|lra]. rewrite Rsqr_sqrt by apply norm2_nonneg.
  unfold norm2, dot, vconst, Rsqr. cbn [vx vy vz]. nra.
Qed.

Lemma norm_vsub_le a b : norm (vsub a b) <= norm a + norm b.
Proof. replace (vsub a b) with (vadd a (vneg b)) by la_ring. rewrite <- (norm_vneg b). apply norm_triangle. Qed.

Lemma abs_dot_le a b : Rabs (dot a b) <= norm a * norm b.
Proof. apply Rabs_le. split; [apply dot_ge_norm | apply dot_le_norm]. Qed.

Lemma frob_rnorms A : frob A = norm (rnorms A).
Proof.
  unfold frob, norm. f_equal. unfold norm2, dot, rnorms. cbn [vx vy vz]. rewrite !norm_sq.
  unfold frob2, row0, row1, row2, dot. cbn [vx vy vz]. ring.
Qed.
Lemma frob_nonneg A : 0 <= frob A. Proof. apply sqrt_pos. Qed.

Lemma vle_abs_nonneg x y z b : 0 <= x -> 0 <= y -> 0 <= z -> x <= vx b -> y <= vy b -> z <= vz b -> vle (vabs (V3 x y z)) b.
Proof. intros. unfold vle, vabs. cbn [vx vy vz]. rewrite !Rabs_pos_eq by assumption. auto. Qed.

Lemma rnorms_mono A b : norm (row0 A) <= vx b -> norm (row1 A) <= vy b -> norm (row2 A) <= vz b -> frob A <= norm b.
Proof. intros. rewrite frob_rnorms. apply norm_mono. apply vle_abs_nonneg; auto using norm_nonneg. Qed.

Lemma frob_mono A B : mle (mabs A) B -> frob A <= frob B.
Proof.
  intros (H0 & H1 & H2). rewrite (frob_rnorms B). apply rnorms_mono; cbn [rnorms vx vy vz]; apply norm_mono; assumption.
Qed.

Lemma frob_triangle A B : frob (madd A B) <= frob A + frob B.
Proof.
  rewrite (frob_rnorms A), (frob_rnorms B). eapply Rle_trans; [|apply norm_triangle].
  apply rnorms_mono; cbn [rnorms vadd vx vy vz].
  - replace (row0 (madd A B)) with (vadd (row0 A) (row0 B)) by reflexivity. apply norm_triangle.
  - replace (row1 (madd A B)) with (vadd (row1 A) (row1 B)) by reflexivity. apply norm_triangle.
  - replace (row2 (madd A B)) with (vadd (row2 A) (row2 B)) by reflexivity. apply norm_triangle.
Qed.

Lemma frob_mscale s A : frob (mscale s A) = Rabs s * frob A.
Proof.
  rewrite (frob_rnorms A), (frob_rnorms (mscale s A)).
  replace (rnorms (mscale s A)) with (vscale (Rabs s) (rnorms A)).
  - rewrite norm_vscale, Rabs_Rabsolu. reflexivity.
  - unfold rnorms.
    replace (row0 (mscale s A)) with (vscale s (row0 A)) by reflexivity.
    replace (row1 (mscale s A)) with (vscale s (row1 A)) by reflexivity.
    replace (row2 (mscale s A)) with (vscale s (row2 A)) by reflexivity.
    rewrite !norm_vscale. reflexivity.
Qed.

Lemma frob_mT A : frob (mT A) = frob A.
Proof. unfold frob. f_equal. destruct A. unfold frob2, mT. cbn. ring. Qed.
Lemma frob_mabs A : frob (mabs A) = frob A.
Proof.
  unfold frob. f_equal. unfold frob2, mabs. cbn [m00 m01 m02 m10 m11 m12 m20 m21 m22].
  rewrite <- !Rabs_mult. rewrite !Rabs_pos_eq by (apply Rle_0_sqr). reflexivity.
Qed.
Lemma frob_mconst c : 0 <= c -> frob (mconst c) <= 3 * c.
Proof.
  intros H. unfold frob. apply Rsqr_incr_0_var; [|lra].
  assert (E : frob2 (mconst c) = 3 * c * (3 * c)) by (unfold frob2, mconst; cbn; ring).
  rewrite E. rewrite Rsqr_sqrt; [unfold Rsqr; lra | nra].
Qed.

Lemma norm_mvec_le A v : norm (mvec A v) <= frob A * norm v.
Proof.
  rewrite frob_rnorms, Rmult_comm.
  rewrite <- (Rabs_pos_eq (norm v)) by apply norm_nonneg. rewrite <- norm_vscale. apply norm_mono.
  unfold vle, vabs, vscale, rnorms. cbn [vx vy vz]. rewrite !(Rmult_comm (norm v)).
  repeat split.
  - replace (vx (mvec A v)) with (dot (row0 A) v) by reflexivity. apply abs_dot_le.
  - replace (vy (mvec A v)) with (dot (row1 A) v) by reflexivity. apply abs_dot_le.
  - replace (vz (mvec A v)) with (dot (row2 A) v) by reflexivity. apply abs_dot_le.
Qed.

Lemma frob_mmul_le A B : frob (mmul A B) <= frob A * frob B.
Proof.
  rewrite (frob_rnorms A), Rmult_comm, <- (frob_mT B).
  rewrite <- (Rabs_pos_eq (frob (mT B))) by apply frob_nonneg. rewrite <- norm_vscale.
  apply rnorms_mono; unfold vscale, rnorms; cbn [vx vy vz].
  - replace (row0 (mmul A B)) with (mvec (mT B) (row0 A)) by (unfold row0, row1, row2; la_ring). apply norm_mvec_le.
  - replace (row1 (mmul A B)) with (mvec (mT B) (row1 A)) by (unfold row0, row1, row2; la_ring). apply norm_mvec_le.
  - replace (row2 (mmul A B)) with (mvec (mT B) (row2 A)) by (unfold row0, row1, row2; la_ring). apply norm_mvec_le.
Qed.

Lemma norm_SO3 Q v : is_SO3 Q -> norm (mvec Q v) = norm v.
Proof. intros H. apply norm_eq_of_dot. apply SO3_dot. exact H. Qed.

Lemma frob_mmul_SO3_r A Q : is_SO3 Q -> frob (mmul A Q) = frob A.
Proof.
  intros H. apply SO3_T in H. rewrite !frob_rnorms. f_equal. unfold rnorms.
  replace (row0 (mmul A Q)) with (mvec (mT Q) (row0 A)) by (unfold row0, row1, row2; la_ring).
  replace (row1 (mmul A Q)) with (mvec (mT Q) (row1 A)) by (unfold row0, row1, row2; la_ring).
  replace (row2 (mmul A Q)) with (mvec (mT Q) (row2 A)) by (unfold row0, row1, row2; la_ring).
  rewrite !(norm_SO3 (mT Q)) by exact H. reflexivity.
Qed.
Lemma frob_mmul_SO3_l Q A : is_SO3 Q -> frob (mmul Q A) = frob A.
Proof. intros H. rewrite <- frob_mT, mT_mmul, frob_mmul_SO3_r by (apply SO3_T; exact H). apply frob_mT. Qed.

Lemma frob_SO3 Q : is_SO3 Q -> frob Q = sqrt 3.
Proof.
  intros H. rewrite <- (mmul_I_r Q), frob_mmul_SO3_l by exact H. unfold frob. f_equal. unfold frob2, I3. cbn. ring.
Qed.

Lemma sqrt3_bounds : 1 <= sqrt 3 <= 2.
Proof.
  split.
  - rewrite <- sqrt_1 at 1. apply sqrt_le_1_alt. lra.
  - replace 2 with (sqrt 4) by (replace 4 with (2 * 2) by ring; apply sqrt_square; lra). apply sqrt_le_1_alt. lra.
Qed.

(** an entrywise bound on the error of a product gives a bound in norm *)
Lemma frob_prod_err E A B g e : 0 <= g -> 0 <= e ->
  mle (mabs E) (madd (mscale g (mmul (mabs A) (mabs B))) (mconst e)) -> frob E <= g * (frob A * frob B) + 3 * e.
Proof.
  intros Hg He H. eapply Rle_trans; [apply frob_mono, H|]. eapply Rle_trans; [apply frob_triangle|].
  rewrite frob_mscale, (Rabs_pos_eq g) by exact Hg.
  pose proof (frob_mmul_le (mabs A) (mabs B)) as K. rewrite !frob_mabs in K.
  pose proof (frob_mconst e He). pose proof (Rmult_le_compat_l g _ _ Hg K). lra.
Qed.
Lemma norm_prod_err x A v g e : 0 <= g -> 0 <= e ->
  vle (vabs x) (vadd (vscale g (mvec (mabs A) (vabs v))) (vconst e)) -> norm x <= g * (frob A * norm v) + 2 * e.
Proof.
  intros Hg He H. eapply Rle_trans; [apply norm_mono, H|]. eapply Rle_trans; [apply norm_triangle|].
  rewrite norm_vscale, (Rabs_pos_eq g) by exact Hg.
  pose proof (norm_mvec_le (mabs A) (vabs v)) as K. rewrite frob_mabs, norm_vabs in K.
  pose proof (norm_vconst e He). pose proof (Rmult_le_compat_l g _ _ Hg K). lra.
Qed.
Lemma norm_round_err x v g e : 0 <= g -> 0 <= e ->
  vle (vabs x) (vadd (vscale g (vabs v)) (vconst e)) -> norm x <= g * norm v + 2 * e.
Proof.
  intros Hg He H. eapply Rle_trans; [apply norm_mono, H|]. eapply Rle_trans; [apply norm_triangle|].
  rewrite norm_vscale, norm_vabs, (Rabs_pos_eq g) by exact Hg. pose proof (norm_vconst e He). lra.
Qed.
