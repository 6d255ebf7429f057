(** Exact real arithmetic as an instance of SpecRound, robots with axes that are only nearly unit vectors,
    and powers of numbers close to 1. *)
From Coq Require Import Reals ZArith List Bool Lra Lia.
From Verif Require Import LinAlg RealAux Py FactsReal FactsLinAlg ModelRot SpecRot FactsRot ModelTransform ModelRobot ModelKin SpecKin FactsKin
  ModelFloat FactsNorm SpecRound FactsRound.
Import ListNotations.
Open Scope R_scope.

Definition rfin : num real_arith -> Prop := fun _ => True.
Definition rval : num real_arith -> R := fun x => x.

Lemma abs_self x : Rabs (x - x) = 0. Proof. rewrite Rminus_diag_eq by reflexivity. apply Rabs_R0. Qed.

Lemma real_sound : sound real_arith rfin rval 0 0 0 0.
Proof.
  unfold rval, rfin. split; cbn [real_arith nneg nadd nsub nmul ndot nsin ncos nle].
  - split; [exact I|]. unfold nzero. cbn [nlit real_arith]. unfold Rdiv. apply Rmult_0_l.
  - split; [exact I|]. unfold none1. cbn [nlit real_arith]. unfold Rdiv. rewrite Rinv_1. ring.
  - intros. split; [exact I | reflexivity].
  - intros. rewrite abs_self. split; [exact I|]. split; [exact I | lra].
  - intros. rewrite abs_self. split; [exact I|]. split; [exact I | lra].
  - intros. rewrite abs_self. split; [exact I|]. split; [exact I | lra].
  - intros. split; [tauto|]. unfold dot_R. cbn [combine fold_right fst snd].
    replace (a * x + (b * y + (c * z + 0)) - (a * x + b * y + c * z)) with 0 by ring. rewrite Rabs_R0. lra.
  - intros. rewrite abs_self. split; [exact I | lra].
  - intros. rewrite abs_self. split; [exact I | lra].
  - reflexivity.
Qed.

(* ---- exact arithmetic: the generic code is the model ---- *)
Definition emb_v (v : vec3) : v3 R := W3 (vx v) (vy v) (vz v).
Definition emb_m (M : mat3) : v3 (v3 R) := W3 (emb_v (row0 M)) (emb_v (row1 M)) (emb_v (row2 M)).
Definition emb_t (T : transform) : gtf real_arith := @GT real_arith (emb_m (tR T)) (emb_v (tp T)).
Definition emb_robot (r : robot) : grobot real_arith :=
  GRb real_arith (map emb_v (rH r)) (map emb_v (rP r)) (rtype r) (rlower r) (rupper r)
    (option_map emb_t (tool_transform r)) (option_map emb_t (rflange r)) (option_map emb_t (rbase r)).

Lemma real_lit0 : nzero real_arith = 0. Proof. exact (proj2 (s_zero _ _ _ _ _ _ _ real_sound)). Qed.
Lemma real_lit1 : none1 real_arith = 1. Proof. exact (proj2 (s_one _ _ _ _ _ _ _ real_sound)). Qed.
Lemma real_dot3 (a b : vec3) : g_dot3 real_arith (emb_v a) (emb_v b) = dot a b.
Proof. unfold g_dot3, emb_v, dot. cbn [w0 w1 w2 ndot real_arith]. unfold dot_R. cbn [combine fold_right fst snd].
  match goal with |- ?a = ?b => change (@eq R a b) end. ring. Qed.
Lemma emb_cols M : v3cols (emb_m M) = emb_m (mT M). Proof. reflexivity. Qed.
Lemma real_mm M N : g_mm real_arith (emb_m M) (emb_m N) = emb_m (mmul M N).
Proof.
  unfold g_mm. rewrite emb_cols. unfold v3map at 1. unfold emb_m at 1 3 5. cbn [w0 w1 w2].
  unfold v3map, emb_m. cbn [w0 w1 w2]. rewrite !real_dot3. reflexivity.
Qed.
Lemma real_mv M v : g_mv real_arith (emb_m M) (emb_v v) = emb_v (mvec M v).
Proof. unfold g_mv, v3map, emb_m. cbn [w0 w1 w2]. rewrite !real_dot3. reflexivity. Qed.
Lemma real_vadd a b : g_vadd real_arith (emb_v a) (emb_v b) = emb_v (vadd a b). Proof. reflexivity. Qed.
Lemma real_vscale t a : v3map (nmul real_arith t) (emb_v a) = emb_v (vscale t a). Proof. reflexivity. Qed.
Lemma real_I3 : g_I3 real_arith = emb_m I3.
Proof. unfold g_I3. rewrite real_lit0, real_lit1. reflexivity. Qed.
Lemma real_hat k : g_hat real_arith (emb_v k) = emb_m (hat k).
Proof. unfold g_hat. rewrite real_lit0. reflexivity. Qed.
Lemma real_rot k t : g_rot real_arith (emb_v k) t = emb_m (rot k t).
Proof. unfold g_rot. rewrite real_hat, real_mm, real_I3, real_lit1. reflexivity. Qed.
Lemma real_tmul a b : g_tmul real_arith (emb_t a) (emb_t b) = emb_t (tmul a b).
Proof. unfold g_tmul, emb_t. cbn [gR gp tmul tR tp]. rewrite real_mm, real_mv, real_vadd. reflexivity. Qed.

Definition emb_out (o : out transform) : out (gtf real_arith) := match o with Ok T => Ok (emb_t T) | Err x => Err x end.

Lemma real_step ty h p t Q q : g_fk_step real_arith ty (emb_v h) (emb_v p) t (@GT real_arith (emb_m Q) (emb_v q))
  = @GT real_arith (emb_m (fst (fk_step ty h p t Q q))) (emb_v (snd (fk_step ty h p t Q q))).
Proof.
  destruct ty; cbn [g_fk_step fk_step fst snd gR gp].
  - rewrite real_rot, real_mm, real_mv, real_vadd. reflexivity.
  - rewrite !real_mv, real_vscale, !real_vadd. reflexivity.
  - rewrite real_rot, real_mm, real_mv, real_vadd. reflexivity.
  - rewrite !real_mv, real_vscale, !real_vadd. reflexivity.
Qed.
Lemma real_loop ty : forall H P theta Q q,
  g_fk_loop real_arith ty (map emb_v H) (map emb_v P) theta (@GT real_arith (emb_m Q) (emb_v q))
  = match fk_loop ty H P theta Q q with Ok Rp => Ok (@GT real_arith (emb_m (fst Rp)) (emb_v (snd Rp))) | Err x => Err x end.
Proof.
  induction ty as [|j ty IH]; intros H P theta Q q; cbn [g_fk_loop fk_loop]; [reflexivity|].
  destruct H as [|h H]; [reflexivity|]. destruct P as [|p P]; [reflexivity|]. destruct theta as [|t theta]; [reflexivity|].
  cbn [map]. rewrite real_step. destruct (fk_step j h p t Q q) as [Q' q']. cbn [fst snd]. apply IH.
Qed.
Lemma real_aux r T : g_apply_aux real_arith (emb_robot r) (emb_t T) = emb_t (apply_aux r T).
Proof.
  unfold g_apply_aux, apply_aux, emb_robot. cbn [grflange grtool grbase].
  destruct (rflange r), (tool_transform r), (rbase r); cbn [option_map]; rewrite ?real_tmul; reflexivity.
Qed.
Theorem real_fwdkin r theta ignore : g_fwdkin real_arith (emb_robot r) theta ignore = emb_out (fwdkin r theta ignore).
Proof.
  unfold g_fwdkin, fwdkin.
  assert (E : g_check_limits real_arith (emb_robot r) theta ignore = check_limits r theta ignore) by reflexivity.
  rewrite E. destruct (check_limits r theta ignore); cbn [bind emb_out]; [|reflexivity].
  unfold emb_robot at 1. cbn [grP]. destruct (rP r) as [|p0 P]; cbn [map emb_out]; [reflexivity|].
  rewrite real_I3. unfold emb_robot at 1 2. cbn [grtype grH]. rewrite real_loop.
  destruct (fk_loop (rtype r) (rH r) P theta I3 p0) as [Rp|x]; cbn [bind emb_out]; [|reflexivity].
  rewrite <- real_aux. reflexivity.
Qed.

(* ---- the error of rot for an axis within d of a unit vector, without rounding ---- *)
Lemma frob_hat v : frob (hat v) = sqrt 2 * norm v.
Proof.
  unfold frob, norm. rewrite <- sqrt_mult_alt by lra. f_equal. unfold frob2, hat, norm2, dot. cbn. ring.
Qed.
Lemma sqrt2_sq : sqrt 2 * sqrt 2 = 2. Proof. apply sqrt_sqrt. lra. Qed.
Lemma sqrt2_bound : 1 <= sqrt 2 <= 1.5.
Proof.
  split; [rewrite <- sqrt_1 at 1; apply sqrt_le_1_alt; lra|].
  replace 1.5 with (sqrt (1.5 * 1.5)) by (apply sqrt_square; lra). apply sqrt_le_1_alt. lra.
Qed.

Lemma rot_split k h t : msub (rot k t) (rot h t) =
  madd (mscale (sin t) (hat (vsub k h))) (mscale (1 - cos t) (madd (mmul (hat (vsub k h)) (hat k)) (mmul (hat h) (hat (vsub k h))))).
Proof. unfold rot. generalize (sin t), (cos t). unfold hat. la_ring. Qed.

Lemma rot_axis_err k h t d : unit3 h -> norm (vsub k h) <= d -> d <= 1 / 10 -> frob (msub (rot k t) (rot h t)) <= 10 * d.
Proof.
  intros U H D. rewrite rot_split. eapply Rle_trans; [apply frob_triangle|]. rewrite !frob_mscale.
  pose proof (frob_triangle (mmul (hat (vsub k h)) (hat k)) (mmul (hat h) (hat (vsub k h)))) as T1.
  pose proof (frob_mmul_le (hat (vsub k h)) (hat k)) as T2. pose proof (frob_mmul_le (hat h) (hat (vsub k h))) as T3.
  rewrite !frob_hat in *. rewrite (norm_unit h U) in *.
  pose proof (norm_nonneg (vsub k h)) as P0. set (x := norm (vsub k h)) in *.
  assert (K : norm k <= 1 + x).
  { rewrite <- (vadd_vsub' k h). pose proof (norm_triangle h (vsub k h)). rewrite (norm_unit h U) in H0. exact H0. }
  assert (S : Rabs (sin t) <= 1) by (apply Rabs_le; pose proof (SIN_bound t); lra).
  assert (C : Rabs (1 - cos t) <= 2) by (apply Rabs_le; pose proof (COS_bound t); lra).
  pose proof sqrt2_bound as B. pose proof sqrt2_sq as B2. pose proof (norm_nonneg k) as Pk.
  assert (T2' : sqrt 2 * x * (sqrt 2 * norm k) <= 2 * x * (1 + x)).
  { replace (sqrt 2 * x * (sqrt 2 * norm k)) with (sqrt 2 * sqrt 2 * (x * norm k)) by ring. rewrite B2.
    assert (x * norm k <= x * (1 + x)) by (apply Rmult_le_compat_l; lra). lra. }
  assert (T3' : sqrt 2 * 1 * (sqrt 2 * x) = 2 * x) by (replace (sqrt 2 * 1 * (sqrt 2 * x)) with (sqrt 2 * sqrt 2 * x) by ring; rewrite B2; ring).
  set (f := frob (madd (mmul (hat (vsub k h)) (hat k)) (mmul (hat h) (hat (vsub k h))))) in *.
  assert (F0 : 0 <= f) by apply frob_nonneg.
  assert (F1 : f <= 4.2 * x). { assert (x * x <= x * (1 / 10)) by (apply Rmult_le_compat_l; lra). lra. }
  assert (M1 : Rabs (sin t) * (sqrt 2 * x) <= 1 * (1.5 * x)) by (apply Rmult_le_compat; [apply Rabs_pos | nra | lra | nra]).
  assert (M2 : Rabs (1 - cos t) * f <= 2 * (4.2 * x)) by (apply Rmult_le_compat; [apply Rabs_pos | lra | lra | lra]).
  lra.
Qed.

Lemma vval_emb (v : vec3) : vval rval (emb_v v) = v. Proof. destruct v. reflexivity. Qed.
Lemma mval_emb (M : mat3) : mval rval (emb_m M) = M. Proof. destruct M. reflexivity. Qed.
Lemma emb_vval (a : v3 R) : emb_v (vval rval a) = a. Proof. destruct a. reflexivity. Qed.

Lemma real_rot_err d : d <= 1 / 10 -> forall hf h t, mfin rfin (g_rot real_arith hf t) -> rep_axis (A := real_arith) rval d hf h ->
  frob (msub (mval (A := real_arith) rval (g_rot real_arith hf t)) (rot h (rval t))) <= 10 * d.
Proof.
  intros D hf h t _ [U H]. rewrite <- (emb_vval hf), real_rot. rewrite mval_emb.
  apply rot_axis_err; assumption.
Qed.

(* ---- powers of numbers close to 1 ---- *)
Lemma pow_close x n : 0 <= x -> INR n * x <= 1 / 2 -> (1 + x) ^ n <= 1 + 2 * (INR n * x).
Proof.
  intros Hx HN.
  assert (G : forall m, (1 + x) ^ m * (1 - INR m * x) <= 1).
  { induction m as [|m IH]; [cbn; lra|]. rewrite S_INR. cbn [pow].
    assert (P : 0 <= (1 + x) ^ m) by (apply pow_le; lra). pose proof (pos_INR m).
    assert (Q : (1 + x) * (1 - (INR m + 1) * x) <= 1 - INR m * x).
    { assert (0 <= (INR m + 1) * (x * x)) by (apply Rmult_le_pos; [lra | apply Rmult_le_pos; lra]). lra. }
    pose proof (Rmult_le_compat_l _ _ _ P Q). lra. }
  specialize (G n). set (y := INR n * x) in *.
  assert (Y : 0 <= y) by (apply Rmult_le_pos; [apply pos_INR | exact Hx]).
  assert (P : 0 <= (1 + x) ^ n) by (apply pow_le; lra). set (z := (1 + x) ^ n) in *.
  assert (Q : 1 <= (1 + 2 * y) * (1 - y)) by nra.
  apply Rmult_le_reg_r with (1 - y); lra.
Qed.
