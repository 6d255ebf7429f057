(** Facts about the subproblems. *)
From Coq Require Import Reals List Lra Psatz Bool.
From Verif Require Import LinAlg RealAux Py ModelRot SpecRot FactsReal FactsLinAlg FactsRot FactsRot2 ModelSub SpecSub.
Import ListNotations.
Open Scope R_scope.

(* ---------- geometry in the plane of an axis ---------- *)
Lemma perp_dot k v : unit3 k -> dot k (perp k v) = 0.
Proof. intros H. unfold perp. rewrite dot_vsub_r, dot_vscale_r, H, (dot_comm k v). ring. Qed.
Lemma perp_decomp k v : v = vadd (vscale (dot v k) k) (perp k v).
Proof. unfold perp. la_ring. Qed.
Lemma perp_rot k t v : unit3 k -> mvec (rot k t) v = vadd (vscale (dot v k) k) (mvec (rot k t) (perp k v)).
Proof. intros H. rewrite (perp_decomp k v) at 1. rewrite mvec_vadd, mvec_vscale, rot_axis. reflexivity. Qed.
Lemma rot_dot_axis k t v : unit3 k -> dot (mvec (rot k t) v) k = dot v k.
Proof.
  intros H. transitivity (dot (mvec (rot k t) v) (mvec (rot k t) k)).
  - rewrite rot_axis. reflexivity.
  - apply SO3_dot, rot_SO3; auto.
Qed.
Lemma perp_rot_perp k t v : unit3 k -> perp k (mvec (rot k t) v) = mvec (rot k t) (perp k v).
Proof.
  intros H. unfold perp. rewrite mvec_vsub, mvec_vscale, rot_axis.
  rewrite rot_dot_axis by auto. reflexivity.
Qed.
Lemma rot_plane k t v : unit3 k -> dot k v = 0 -> mvec (rot k t) v = vadd (vscale (cos t) v) (vscale (sin t) (cross k v)).
Proof. intros H E. rewrite rot_rotate by auto. unfold rotate. rewrite E. la_ring. Qed.
Lemma dot_perp k a b : unit3 k -> dot a b = dot a k * dot b k + dot (perp k a) (perp k b).
Proof. intros H. unfold perp. rewrite !dot_vsub_l, !dot_vsub_r, !dot_vscale_l, !dot_vscale_r, H, (dot_comm k b). ring. Qed.
Lemma perp_norm k a : unit3 k -> dot (perp k a) (perp k a) = dot a a - dot a k * dot a k.
Proof. intros H. rewrite (dot_perp k a a H). ring. Qed.

Lemma cross_plane k e f : unit3 k -> dot k e = 0 -> dot k f = 0 -> cross e f = vscale (dot k (cross e f)) k.
Proof.
  intros H He Hf. assert (E : cross k (cross e f) = vzero).
  { rewrite cross_cross, He, Hf. la_ring. }
  assert (F : cross k (cross k (cross e f)) = vzero) by (rewrite E; la_ring).
  rewrite cross_cross, H in F. revert F. generalize (dot k (cross e f)), (cross e f). intros s [x y z] F.
  destruct k. la_unfold. inversion F. f_equal; lra.
Qed.
Lemma plane_circle k e f : unit3 k -> dot k e = 0 -> dot k f = 0 -> unit3 e -> unit3 f ->
  dot k (cross e f) * dot k (cross e f) + dot e f * dot e f = 1.
Proof.
  intros H He Hf Ue Uf. pose proof (lagrange e f) as L. rewrite (cross_plane k e f) in L by auto.
  unfold norm2 in L. rewrite dot_vscale_l, dot_vscale_r, H, Ue, Uf in L. lra.
Qed.
(** A vector of the plane in the frame e, k x e. *)
Lemma plane_frame k e f : unit3 k -> dot k e = 0 -> dot k f = 0 -> unit3 e ->
  f = vadd (vscale (dot e f) e) (vscale (dot k (cross e f)) (cross k e)).
Proof.
  intros H He Hf Ue.
  assert (E : cross (cross e f) e = vsub (vscale (dot e e) f) (vscale (dot e f) e)) by la_ring.
  rewrite (cross_plane k e f), cross_vscale_l in E by auto. rewrite Ue in E. rewrite E. la_ring.
Qed.
Lemma plane_rot k e f t : unit3 k -> dot k e = 0 -> dot k f = 0 -> unit3 e -> unit3 f ->
  cos t = dot e f -> sin t = dot k (cross e f) -> mvec (rot k t) e = f.
Proof.
  intros H He Hf Ue Uf C S. rewrite rot_plane, C, S by auto. symmetry. apply plane_frame; auto.
Qed.
(** Conversely the angle is determined. *)
Lemma plane_rot_angle k e t : unit3 k -> dot k e = 0 -> unit3 e ->
  dot e (mvec (rot k t) e) = cos t /\ dot k (cross e (mvec (rot k t) e)) = sin t.
Proof.
  intros H He Ue. rewrite rot_plane by auto. split.
  - rewrite dot_vadd_r, !dot_vscale_r, Ue. rewrite (dot_cross_r k e). ring.
  - rewrite cross_vadd_r, !cross_vscale_r, cross_self, cross_cross, Ue, (dot_comm e k), He.
    rewrite dot_vadd_r, !dot_vscale_r, dot_vsub_r, !dot_vscale_r, H, He.
    replace (dot k vzero) with 0 by la_ring. ring.
Qed.

Lemma dir_unit v : v <> vzero -> unit3 (dir v).
Proof.
  intros H. pose proof (norm_pos v H). unfold unit3, dir. rewrite dot_vscale_l, dot_vscale_r, <- norm_sq. field. lra.
Qed.
Lemma vdiv_dir v : vdiv v (norm v) = dir v.
Proof. apply vdiv_scale. Qed.
Lemma dir_scale v : v <> vzero -> vscale (norm v) (dir v) = v.
Proof.
  intros H. pose proof (norm_pos v H). unfold dir. rewrite vscale_vscale, Rinv_r by lra. apply vscale_1.
Qed.
Lemma dir_of_unit v : unit3 v -> dir v = v.
Proof. intros H. unfold dir. rewrite norm_unit, Rinv_1 by auto. apply vscale_1. Qed.
Lemma dir_dir v : v <> vzero -> dir (dir v) = dir v.
Proof. intros H. apply dir_of_unit, dir_unit; auto. Qed.
Lemma unit_nonzero v : unit3 v -> v <> vzero.
Proof. intros H ->. unfold unit3 in H. la_unfold. lra. Qed.
Lemma Reqb_norm v : Reqb (norm v) 0 = false <-> v <> vzero.
Proof.
  split; intros H.
  - intros ->. rewrite norm_vzero, Reqb_refl in H. discriminate.
  - apply Reqb_false. intros E. apply H, norm_zero; auto.
Qed.
Lemma Reqb_norm_true v : Reqb (norm v) 0 = true <-> v = vzero.
Proof.
  split; intros H.
  - apply Reqb_true in H. apply norm_zero; auto.
  - subst. rewrite norm_vzero. apply Reqb_refl.
Qed.
Lemma vec3_dec (v : vec3) : v = vzero \/ v <> vzero.
Proof. destruct (Reqb (norm v) 0) eqn:E. left; apply Reqb_norm_true; auto. right; apply Reqb_norm; auto. Qed.

(* ---------- subproblem 0 ---------- *)
Definition sp0_theta (e f : vec3) : R := 2 * atan2 (norm (vsub e f)) (norm (vadd e f)).
Lemma sp0_theta_spec e f : unit3 e -> unit3 f ->
  cos (sp0_theta e f) = dot e f /\ sin (sp0_theta e f) * sin (sp0_theta e f) = 1 - dot e f * dot e f /\
  0 <= sp0_theta e f <= PI.
Proof.
  intros Ue Uf. unfold sp0_theta.
  set (a := norm (vsub e f)). set (b := norm (vadd e f)). pose proof PI_pos.
  assert (Ha : a * a = 2 - 2 * dot e f).
  { unfold a. rewrite norm_sq, dot_vsub_l, !dot_vsub_r, Ue, Uf, (dot_comm f e). ring. }
  assert (Hb : b * b = 2 + 2 * dot e f).
  { unfold b. rewrite norm_sq, dot_vadd_l, !dot_vadd_r, Ue, Uf, (dot_comm f e). ring. }
  assert (a0 : 0 <= a) by apply norm_nonneg. assert (b0 : 0 <= b) by apply norm_nonneg.
  pose proof (atan2_cos a b) as C. pose proof (atan2_sin a b) as S.
  replace (b * b + a * a) with (2 * 2) in C, S by lra. rewrite sqrt_square in C, S by lra.
  pose proof (atan2_range a b) as Rg. pose proof (atan2_pos_sin_nonneg a b a0) as P0.
  set (t := atan2 a b) in *. clearbody t a b.
  assert (Ct : cos (2 * t) = dot e f). { rewrite cos_2a. replace (cos t) with (b/2) by lra. replace (sin t) with (a/2) by lra. lra. }
  split; [auto|]. split.
  - pose proof (sin_cos_1 (2 * t)). rewrite Ct in H0. lra.
  - split. lra. destruct (Rle_lt_dec t (PI/2)); [lra|]. exfalso.
    assert (cos t < 0) by (apply cos_lt_0; lra). lra.
Qed.
Lemma subproblem0_unit e f k : unit3 k -> unit3 e -> unit3 f -> dot k e = 0 -> dot k f = 0 ->
  exists t, subproblem0 e f k = Ok (Fin t) /\ - PI < t <= PI /\ cos t = dot e f /\ sin t = dot k (cross e f).
Proof.
  intros Uk Ue Uf He Hf. unfold subproblem0. pose proof eps_pos. pose proof PI_pos.
  rewrite He, Hf, (Rltb_lt 0 eps) by auto. cbn [andb assert_ bind].
  rewrite (proj2 (Reqb_norm e)), (proj2 (Reqb_norm f)) by (apply unit_nonzero; auto). cbn [orb].
  rewrite !vdiv_dir, !dir_of_unit by auto. fold (sp0_theta e f).
  destruct (sp0_theta_spec e f Ue Uf) as (C & S & Rg). pose proof (plane_circle k e f Uk He Hf Ue Uf) as Q.
  set (t := sp0_theta e f) in *. clearbody t. set (s := dot k (cross e f)) in *. clearbody s.
  assert (S0 : 0 <= sin t) by (apply sin_ge_0; lra).
  rcases.
  - exists (- t). split; auto. rewrite cos_neg, sin_neg. split; [|split; [auto|nra]].
    destruct (Req_dec t PI) as [->|]; [|lra]. rewrite sin_PI in S. nra.
  - exists t. split; auto. split; [lra|]. split; auto. nra.
Qed.
(** Scaling the arguments of subproblem0. *)
Lemma subproblem0_dir p q k : unit3 k -> p <> vzero -> q <> vzero -> dot k p = 0 -> dot k q = 0 ->
  subproblem0 p q k = subproblem0 (dir p) (dir q) k.
Proof.
  intros Uk Hp Hq Kp Kq. unfold subproblem0.
  assert (Dp : dot k (dir p) = 0) by (unfold dir; rewrite dot_vscale_r, Kp; ring).
  assert (Dq : dot k (dir q) = 0) by (unfold dir; rewrite dot_vscale_r, Kq; ring).
  rewrite Kp, Kq, Dp, Dq. destruct (_ && _)%bool; cbn [assert_ bind]; auto.
  rewrite !(proj2 (Reqb_norm _)) by (auto using unit_nonzero, dir_unit). cbn [orb].
  rewrite !vdiv_dir, !dir_dir by auto.
  assert (Sg : dot k (cross (dir p) (dir q)) = (/ norm p * / norm q) * dot k (cross p q)).
  { unfold dir. rewrite cross_vscale_l, cross_vscale_r, !dot_vscale_r. ring. }
  pose proof (Rinv_0_lt_compat _ (norm_pos p Hp)). pose proof (Rinv_0_lt_compat _ (norm_pos q Hq)).
  assert (0 < / norm p * / norm q) by (apply Rmult_lt_0_compat; auto).
  destruct (Rlt_le_dec (dot k (cross p q)) 0).
  - rewrite !Rltb_lt; auto. rewrite Sg. nra.
  - rewrite !Rltb_ge; auto. rewrite Sg. nra.
Qed.
Lemma subproblem0_correct p q k : unit3 k -> p <> vzero -> q <> vzero -> dot k p = 0 -> dot k q = 0 ->
  exists t, subproblem0 p q k = Ok (Fin t) /\ - PI < t <= PI /\ mvec (rot k t) (dir p) = dir q.
Proof.
  intros Uk Hp Hq Kp Kq. rewrite subproblem0_dir by auto.
  assert (Dp : dot k (dir p) = 0) by (unfold dir; rewrite dot_vscale_r, Kp; ring).
  assert (Dq : dot k (dir q) = 0) by (unfold dir; rewrite dot_vscale_r, Kq; ring).
  destruct (subproblem0_unit (dir p) (dir q) k) as (t & E & Rg & C & S); auto using dir_unit.
  exists t. split; auto. split; auto. apply plane_rot; auto using dir_unit.
Qed.

(* ---------- subproblem 1 ---------- *)
(** subproblem1 off the shortcut, for a unit axis. *)
Lemma subproblem1_off p q k : unit3 k -> sqrt_eps <= norm (vsub p q) ->
  perp k p <> vzero -> perp k q <> vzero ->
  exists t, subproblem1 p q k = Ok t /\ - PI < t <= PI /\ mvec (rot k t) (dir (perp k p)) = dir (perp k q).
Proof.
  intros Uk Hs Hp Hq. unfold subproblem1. rewrite Rltb_ge by auto.
  rewrite (proj2 (Reqb_norm k)) by auto using unit_nonzero. cbv zeta.
  rewrite (vdiv_dir k), dir_of_unit by auto.
  fold (perp k p) (perp k q).
  rewrite !(proj2 (Reqb_norm _)) by auto. cbn [orb]. rewrite !vdiv_dir.
  assert (Dp : dot k (dir (perp k p)) = 0) by (unfold dir; rewrite dot_vscale_r, perp_dot by auto; ring).
  assert (Dq : dot k (dir (perp k q)) = 0) by (unfold dir; rewrite dot_vscale_r, perp_dot by auto; ring).
  destruct (subproblem0_correct (dir (perp k p)) (dir (perp k q)) k) as (t & E & Rg & C); auto using unit_nonzero, dir_unit.
  rewrite E. cbn [bind]. exists t. split; auto. split; auto. rewrite !dir_dir in C; auto.
Qed.
Lemma subproblem1_short p q k : norm (vsub p q) < sqrt_eps -> subproblem1 p q k = Ok 0.
Proof. intros H. unfold subproblem1. rewrite Rltb_lt; auto. Qed.
Lemma subproblem1_on_axis p q k : unit3 k -> sqrt_eps <= norm (vsub p q) ->
  on_axis k p \/ on_axis k q -> subproblem1 p q k = Err AssertionError.
Proof.
  intros Uk Hs H. unfold subproblem1. rewrite Rltb_ge by auto.
  rewrite (proj2 (Reqb_norm k)) by auto using unit_nonzero. cbv zeta.
  rewrite (vdiv_dir k), dir_of_unit by auto. fold (perp k p) (perp k q).
  destruct H as [H|H]; rewrite H, (proj2 (Reqb_norm_true vzero) eq_refl); auto. rewrite orb_true_r. reflexivity.
Qed.
Lemma subproblem1_axis_scale p q k : k <> vzero -> subproblem1 p q k = subproblem1 p q (dir k).
Proof.
  intros Hk. unfold subproblem1. rewrite (proj2 (Reqb_norm k)), (proj2 (Reqb_norm (dir k))) by auto using unit_nonzero, dir_unit.
  cbv zeta. rewrite !vdiv_dir, !dir_dir by auto. reflexivity.
Qed.
Lemma subproblem1_total p q k : k <> vzero ->
  (exists t, subproblem1 p q k = Ok t) \/ subproblem1 p q k = Err AssertionError.
Proof.
  intros Hk. destruct (Rlt_le_dec (norm (vsub p q)) sqrt_eps) as [S|S].
  - left. exists 0. apply subproblem1_short; auto.
  - assert (E : subproblem1 p q k = subproblem1 p q (dir k)) by (apply subproblem1_axis_scale; auto).
    rewrite E. pose proof (dir_unit k Hk) as Uk. set (k' := dir k) in *. clearbody k'.
    destruct (vec3_dec (perp k' p)) as [P|P]; [right; apply subproblem1_on_axis; auto; left; auto|].
    destruct (vec3_dec (perp k' q)) as [Q|Q]; [right; apply subproblem1_on_axis; auto; right; auto|].
    destruct (subproblem1_off p q k') as (t & Et & _); auto. left; eauto.
Qed.
Lemma subproblem1_cases p q k t : unit3 k -> subproblem1 p q k = Ok t ->
  (norm (vsub p q) < sqrt_eps /\ t = 0) \/
  (sqrt_eps <= norm (vsub p q) /\ perp k p <> vzero /\ perp k q <> vzero /\ - PI < t <= PI /\
   mvec (rot k t) (dir (perp k p)) = dir (perp k q)).
Proof.
  intros Uk E. destruct (Rlt_le_dec (norm (vsub p q)) sqrt_eps) as [S|S].
  - left. rewrite subproblem1_short in E by auto. inversion E; auto.
  - right. split; auto.
    destruct (vec3_dec (perp k p)) as [P|P]; [rewrite subproblem1_on_axis in E by (auto; left; auto); discriminate|].
    destruct (vec3_dec (perp k q)) as [Q|Q]; [rewrite subproblem1_on_axis in E by (auto; right; auto); discriminate|].
    destruct (subproblem1_off p q k) as (t' & Et & Rg & F); auto. rewrite E in Et. inversion Et; subst. auto.
Qed.
(** When the data admit a solution the answer solves the equation. *)
Lemma subproblem1_solves p q k t : unit3 k -> subproblem1 p q k = Ok t ->
  dot p p = dot q q -> dot k p = dot k q -> sqrt_eps <= norm (vsub p q) -> mvec (rot k t) p = q.
Proof.
  intros Uk E N D S. destruct (subproblem1_cases p q k t Uk E) as [[L _]|(_ & P & Q & _ & F)]; [lra|].
  assert (Np : norm (perp k p) = norm (perp k q)).
  { apply norm_eq_of_dot. rewrite !perp_norm, (dot_comm p k), (dot_comm q k) by auto. rewrite N, D. reflexivity. }
  rewrite perp_rot by auto. rewrite <- (dir_scale (perp k p)) by auto. rewrite mvec_vscale, F, Np, dir_scale by auto.
  rewrite (dot_comm p k), D, (dot_comm k q). symmetry. apply perp_decomp.
Qed.
(** Within sqrt(eps) in all cases. *)
Lemma subproblem1_near p q k t : unit3 k -> subproblem1 p q k = Ok t ->
  dot p p = dot q q -> dot k p = dot k q -> norm (vsub (mvec (rot k t) p) q) < sqrt_eps.
Proof.
  intros Uk E N D. destruct (Rlt_le_dec (norm (vsub p q)) sqrt_eps) as [S|S].
  - rewrite subproblem1_short in E by auto. inversion E; subst. rewrite rot_0, mvec_I. auto.
  - rewrite (subproblem1_solves p q k t) by auto. rewrite vsub_self, norm_vzero. apply sqrt_eps_pos.
Qed.
(** Every solution is the returned one, up to whole turns. *)
Lemma rot_perp_unique k v a b : unit3 k -> perp k v <> vzero -> mvec (rot k a) v = mvec (rot k b) v -> ang_eq a b.
Proof.
  intros Uk P E. assert (F : mvec (rot k a) (dir (perp k v)) = mvec (rot k b) (dir (perp k v))).
  { unfold dir. rewrite !mvec_vscale, <- !perp_rot_perp, E by auto. reflexivity. }
  assert (D : dot k (dir (perp k v)) = 0) by (unfold dir; rewrite dot_vscale_r, perp_dot by auto; ring).
  destruct (plane_rot_angle k (dir (perp k v)) a) as [Ca Sa]; auto using dir_unit.
  destruct (plane_rot_angle k (dir (perp k v)) b) as [Cb Sb]; auto using dir_unit.
  apply cos_sin_ang_eq. rewrite <- Ca, <- Cb, F; auto. rewrite <- Sa, <- Sb, F; auto.
Qed.
Lemma subproblem1_complete p k a t : unit3 k -> perp k p <> vzero ->
  sqrt_eps <= norm (vsub p (mvec (rot k a) p)) ->
  subproblem1 p (mvec (rot k a) p) k = Ok t -> ang_eq t a.
Proof.
  intros Uk P S E. apply (rot_perp_unique k p); auto.
  apply subproblem1_solves; auto.
  - rewrite SO3_dot by auto using rot_SO3. reflexivity.
  - rewrite (dot_comm k (mvec _ _)), rot_dot_axis, (dot_comm p k) by auto. reflexivity.
Qed.
(** The answer minimises the distance. *)
Lemma rot_dist_sq k p q a : unit3 k ->
  dot (vsub (mvec (rot k a) p) q) (vsub (mvec (rot k a) p) q) =
  dot p p + dot q q - 2 * (dot p k * dot q k + dot (mvec (rot k a) (perp k p)) (perp k q)).
Proof.
  intros Uk. rewrite dot_vsub_l, !dot_vsub_r, SO3_dot by auto using rot_SO3.
  rewrite (dot_perp k (mvec (rot k a) p) q), perp_rot_perp by auto.
  rewrite (dot_comm q (mvec (rot k a) p)), (dot_perp k (mvec (rot k a) p) q), perp_rot_perp by auto.
  rewrite rot_dot_axis by auto. ring.
Qed.
Lemma norm_le_of_dot a b : dot a a <= dot b b -> norm a <= norm b.
Proof. intros H. unfold norm, norm2. apply sqrt_le_1_alt; auto. Qed.
Lemma subproblem1_optimal p q k t a : unit3 k -> sqrt_eps <= norm (vsub p q) -> subproblem1 p q k = Ok t ->
  norm (vsub (mvec (rot k t) p) q) <= norm (vsub (mvec (rot k a) p) q).
Proof.
  intros Uk S E. destruct (subproblem1_cases p q k t Uk E) as [[L _]|(_ & P & Q & _ & F)]; [lra|].
  apply norm_le_of_dot. rewrite !rot_dist_sq by auto.
  assert (T : dot (mvec (rot k t) (perp k p)) (perp k q) = norm (perp k p) * norm (perp k q)).
  { rewrite <- (dir_scale (perp k p)) at 1 by auto. rewrite mvec_vscale, F.
    rewrite <- (dir_scale (perp k q)) at 2 by auto. rewrite dot_vscale_l, dot_vscale_r, (dir_unit (perp k q) Q). ring. }
  pose proof (dot_le_norm (mvec (rot k a) (perp k p)) (perp k q)) as B.
  rewrite SO3_norm in B by auto using rot_SO3. lra.
Qed.

(* ---------- subproblem 2 ---------- *)
Lemma dot_00 : dot vzero vzero = 0. Proof. la_ring. Qed.
Lemma lin_00 a b : vsub (vscale 0 a) (vscale 0 b) = vzero. Proof. la_ring. Qed.
Lemma vsub_0 a b : vsub a b = vzero -> a = b.
Proof. destruct a, b. la_unfold. intros F. inversion F. f_equal; lra. Qed.
Section SP2.
Context (p q k1 k2 : vec3) (U1 : unit3 k1) (U2 : unit3 k2).
Let k12 := dot k1 k2.
Let pk := dot p k2.
Let qk := dot q k1.
Let a0 := (k12 * pk - qk) / (k12 * k12 - 1).
Let a1 := (- pk + k12 * qk) / (k12 * k12 - 1).
Let n := cross k1 k2.
Let c g := vadd (vadd (vscale a0 k1) (vscale a1 k2)) (vscale g n).
Let gap := cone_gap p q k1 k2.

Lemma sp2_n2 : dot n n = 1 - k12 * k12.
Proof. pose proof (lagrange k1 k2) as L. unfold norm2 in L. rewrite U1, U2 in L. unfold n, k12. lra. Qed.
Lemma sp2_k12 : k12 * k12 <= 1.
Proof. pose proof (cauchy_schwarz k1 k2) as L. rewrite U1, U2 in L. unfold k12. lra. Qed.

Hypothesis (Hk : k12 * k12 <> 1).
Lemma sp2_n0 : n <> vzero.
Proof. intros E. pose proof sp2_n2 as L. rewrite E in L. rewrite dot_00 in L. lra. Qed.
Lemma sp2_c1 g : dot (c g) k1 = qk.
Proof.
  unfold c. rewrite !dot_vadd_l, !dot_vscale_l, U1, (dot_comm k2 k1). fold k12.
  rewrite (dot_comm n k1). unfold n. rewrite dot_cross_l. unfold a0, a1. field. lra.
Qed.
Lemma sp2_c2 g : dot (c g) k2 = pk.
Proof.
  unfold c. rewrite !dot_vadd_l, !dot_vscale_l, U2. fold k12.
  rewrite (dot_comm n k2). unfold n. rewrite dot_cross_r. unfold a0, a1. field. lra.
Qed.
Lemma sp2_cc g : dot (c g) (c g) = dot p p - gap + g * g * dot n n.
Proof.
  unfold c at 2. rewrite !dot_vadd_r, !dot_vscale_r, sp2_c1, sp2_c2.
  assert (E : dot (c g) n = g * dot n n).
  { unfold c. rewrite !dot_vadd_l, !dot_vscale_l. unfold n at 1 2. rewrite dot_cross_l, dot_cross_r. ring. }
  rewrite E. unfold gap, cone_gap. fold k12 pk qk. unfold a0, a1. field. split; lra.
Qed.
Lemma sp2_bb : dot p p - (a0 * a0 + a1 * a1) - 2 * a0 * a1 * k12 = gap.
Proof. unfold gap, cone_gap. fold k12 pk qk. unfold a0, a1. field. split; lra. Qed.
(** A point of both circles is c g. *)
Lemma sp2_point v : dot v k1 = qk -> dot v k2 = pk -> v = c (dot v n / dot n n).
Proof.
  intros E1 E2.
  assert (F : vsub v (c (dot v n / dot n n)) = vzero).
  { set (w := vsub v _).
    assert (W1 : dot w k1 = 0) by (unfold w; rewrite dot_vsub_l, sp2_c1; lra).
    assert (W2 : dot w k2 = 0) by (unfold w; rewrite dot_vsub_l, sp2_c2; lra).
    pose proof sp2_n2 as N.
    assert (W3 : dot w n = 0).
    { unfold w. rewrite dot_vsub_l. unfold c. rewrite !dot_vadd_l, !dot_vscale_l. unfold n at 2 3.
      rewrite dot_cross_l, dot_cross_r. field. rewrite N. lra. }
    assert (W : cross w n = vzero) by (unfold n; rewrite cross_cross, W1, W2; apply lin_00).
    pose proof (lagrange w n) as L. rewrite W, W3 in L. unfold norm2 in L.
    rewrite dot_00 in L. rewrite N in L.
    apply norm2_zero. unfold norm2. apply (Rmult_eq_reg_r (1 - k12 * k12)); lra. }
  apply vsub_0; auto.
Qed.
Lemma sp2_gap_point v : dot v k1 = qk -> dot v k2 = pk -> dot v v = dot p p ->
  gap * dot n n = dot v n * dot v n.
Proof.
  intros E1 E2 E3. pose proof (sp2_cc (dot v n / dot n n)) as C. rewrite <- sp2_point in C by auto.
  pose proof sp2_n2 as N. assert (N0 : dot n n <> 0) by lra.
  assert (G : gap = (dot v n / dot n n) * (dot v n / dot n n) * dot n n) by lra. rewrite G. field. auto.
Qed.

(** Everything the two-solution branch needs. *)
Hypothesis (Hg : 0 < gap).
Hypothesis (Hn : dot p p = dot q q).
Let gamma := sqrt gap / norm n.
Lemma sp2_gamma : gamma * gamma * dot n n = gap.
Proof.
  unfold gamma. rewrite <- norm_sq. pose proof (norm_pos n sp2_n0).
  replace (sqrt gap / norm n * (sqrt gap / norm n) * (norm n * norm n)) with (sqrt gap * sqrt gap) by (field; lra).
  apply sqrt_sqrt. lra.
Qed.
Lemma perp_nonzero k v : unit3 k -> 0 < dot v v - dot v k * dot v k -> perp k v <> vzero.
Proof. intros U H E. rewrite <- perp_norm in H by auto. rewrite E in H. rewrite dot_00 in H. lra. Qed.
Lemma sp2_gaps : gap <= dot p p - pk * pk /\ gap <= dot p p - qk * qk.
Proof.
  pose proof (sp2_cc 0) as C. rewrite Rmult_0_l, Rmult_0_l, Rplus_0_r in C.
  pose proof (cauchy_schwarz (c 0) k1) as A. pose proof (cauchy_schwarz (c 0) k2) as B.
  rewrite U1, sp2_c1 in A. rewrite U2, sp2_c2 in B. lra.
Qed.
Lemma sp2_off g : g * g * dot n n = gap ->
  (exists t, subproblem1 q (c g) k1 = Ok t /\ (sqrt_eps <= norm (vsub q (c g)) -> mvec (rot k1 t) q = c g) /\
     norm (vsub (mvec (rot k1 t) q) (c g)) < sqrt_eps /\ (norm (vsub q (c g)) < sqrt_eps -> t = 0)) /\
  (exists t, subproblem1 p (c g) k2 = Ok t /\ (sqrt_eps <= norm (vsub p (c g)) -> mvec (rot k2 t) p = c g) /\
     norm (vsub (mvec (rot k2 t) p) (c g)) < sqrt_eps /\ (norm (vsub p (c g)) < sqrt_eps -> t = 0)).
Proof.
  intros G. destruct sp2_gaps as [G1 G2]. pose proof (sp2_cc g) as C.
  split.
  - assert (E : exists t, subproblem1 q (c g) k1 = Ok t).
    { destruct (Rlt_le_dec (norm (vsub q (c g))) sqrt_eps); [eexists; apply subproblem1_short; auto|].
      destruct (subproblem1_off q (c g) k1) as (t & E & _); eauto; apply perp_nonzero; auto.
      - fold qk. lra.
      - rewrite sp2_c1. lra. }
    destruct E as [t E]. exists t. split; auto.
    assert (D1 : dot q q = dot (c g) (c g)) by lra.
    assert (D2 : dot k1 q = dot k1 (c g)) by (rewrite (dot_comm k1 (c g)), sp2_c1; apply dot_comm).
    split; [intros; apply subproblem1_solves; auto|]. split; [apply subproblem1_near; auto|].
    intros S. rewrite subproblem1_short in E by auto. inversion E; auto.
  - assert (E : exists t, subproblem1 p (c g) k2 = Ok t).
    { destruct (Rlt_le_dec (norm (vsub p (c g))) sqrt_eps); [eexists; apply subproblem1_short; auto|].
      destruct (subproblem1_off p (c g) k2) as (t & E & _); eauto; apply perp_nonzero; auto.
      - fold pk. lra.
      - rewrite sp2_c2. lra. }
    destruct E as [t E]. exists t. split; auto.
    assert (D1 : dot p p = dot (c g) (c g)) by lra.
    assert (D2 : dot k2 p = dot k2 (c g)) by (rewrite (dot_comm k2 (c g)), sp2_c2; apply dot_comm).
    split; [intros; apply subproblem1_solves; auto|]. split; [apply subproblem1_near; auto|].
    intros S. rewrite subproblem1_short in E by auto. inversion E; auto.
Qed.
End SP2.

(** Which branch subproblem2 takes. *)
Lemma subproblem2_parallel p q k1 k2 : Rabs (1 - dot k1 k2 * dot k1 k2) < eps -> subproblem2 p q k1 k2 = Ok [].
Proof. intros H. unfold subproblem2. rewrite Rltb_lt; auto. Qed.
Lemma subproblem2_miss p q k1 k2 : eps <= Rabs (1 - dot k1 k2 * dot k1 k2) -> unit3 k1 -> unit3 k2 ->
  cone_gap p q k1 k2 <= - eps -> subproblem2 p q k1 k2 = Ok [].
Proof.
  intros H U1 U2 G. pose proof eps_pos. unfold subproblem2. rewrite Rltb_ge by auto. cbv zeta.
  rewrite sp2_bb by (auto; intros E; rewrite E in H; replace (1 - 1) with 0 in H by ring; rewrite Rabs_R0 in H; lra).
  rewrite (Rltb_ge _ eps) by (rewrite Rabs_left; lra). rewrite Rltb_lt by lra. reflexivity.
Qed.

(** The points where the circles cross. *)
Definition sp2_c (p q k1 k2 : vec3) (g : R) : vec3 :=
  let k12 := dot k1 k2 in
  let a0 := (k12 * dot p k2 - dot q k1) / (k12 * k12 - 1) in
  let a1 := (- dot p k2 + k12 * dot q k1) / (k12 * k12 - 1) in
  vadd (vadd (vscale a0 k1) (vscale a1 k2)) (vscale g (cross k1 k2)).
Definition sp2_g (p q k1 k2 : vec3) : R := sqrt (cone_gap p q k1 k2) / norm (cross k1 k2).

Lemma subproblem2_two p q k1 k2 : unit3 k1 -> unit3 k2 -> eps <= Rabs (1 - dot k1 k2 * dot k1 k2) ->
  eps <= cone_gap p q k1 k2 ->
  subproblem2 p q k1 k2 =
  let c := sp2_c p q k1 k2 in let gamma := sp2_g p q k1 k2 in
  let* theta1_1 := subproblem1 q (c gamma) k1 in
  let* theta1_2 := subproblem1 q (c (- gamma)) k1 in
  let* theta2_1 := subproblem1 p (c gamma) k2 in
  let* theta2_2 := subproblem1 p (c (- gamma)) k2 in
  Ok [(- theta1_1, theta2_1); (- theta1_2, theta2_2)].
Proof.
  intros U1 U2 H G. pose proof eps_pos as e0. unfold subproblem2. rewrite Rltb_ge by auto. cbv zeta.
  assert (Hk : dot k1 k2 * dot k1 k2 <> 1).
  { intros E; rewrite E in H; replace (1 - 1) with 0 in H by ring; rewrite Rabs_R0 in H; lra. }
  rewrite sp2_bb by auto.
  rewrite (Rltb_ge (Rabs (cone_gap _ _ _ _)) eps) by (rewrite Rabs_right; lra).
  rewrite Rltb_ge by lra. rewrite (proj2 (Reqb_norm (cross k1 k2))) by (apply sp2_n0; auto).
  assert (N : norm (cross k1 k2) <= 1).
  { pose proof (norm_nonneg (cross k1 k2)). pose proof (norm_sq (cross k1 k2)). rewrite sp2_n2 in H1 by auto.
    destruct (Rle_lt_dec (norm (cross k1 k2)) 1); auto. nra. }
  assert (G0 : eps <= sp2_g p q k1 k2).
  { unfold sp2_g. pose proof (norm_pos _ (sp2_n0 k1 k2 U1 U2 Hk)).
    assert (S : sqrt_eps <= sqrt (cone_gap p q k1 k2)).
    { rewrite <- (sqrt_square sqrt_eps) by (pose proof sqrt_eps_pos; lra). rewrite sqrt_eps_sq. apply sqrt_le_1_alt; auto. }
    assert (sqrt_eps <= sqrt (cone_gap p q k1 k2) / norm (cross k1 k2)).
    { apply (Rmult_le_reg_r (norm (cross k1 k2))); auto. unfold Rdiv. rewrite Rmult_assoc, Rinv_l, Rmult_1_r by lra.
      pose proof sqrt_eps_pos. nra. }
    pose proof sqrt_eps_pos. pose proof sqrt_eps_sq. pose proof sqrt_eps_small. nra. }
  unfold sp2_g in *. rewrite (Rltb_ge (Rabs _) eps) by (rewrite Rabs_right; lra). reflexivity.
Qed.

Lemma rot_neg_back k t v w : unit3 k -> mvec (rot k t) v = w -> mvec (rot k (- t)) w = v.
Proof. intros U <-. rewrite <- rot_T by auto. apply SO3_T_vec, rot_SO3; auto. Qed.

Lemma subproblem2_two_ok p q k1 k2 : unit3 k1 -> unit3 k2 -> eps <= Rabs (1 - dot k1 k2 * dot k1 k2) ->
  eps <= cone_gap p q k1 k2 -> dot p p = dot q q ->
  let c := sp2_c p q k1 k2 in let gamma := sp2_g p q k1 k2 in
  exists a1 b1 a2 b2, subproblem2 p q k1 k2 = Ok [(- a1, b1); (- a2, b2)] /\
    (subproblem1 q (c gamma) k1 = Ok a1 /\ subproblem1 p (c gamma) k2 = Ok b1 /\
     subproblem1 q (c (- gamma)) k1 = Ok a2 /\ subproblem1 p (c (- gamma)) k2 = Ok b2).
Proof.
  intros U1 U2 H G N. cbv zeta. pose proof eps_pos as e0.
  assert (Hk : dot k1 k2 * dot k1 k2 <> 1).
  { intros E; rewrite E in H; replace (1 - 1) with 0 in H by ring; rewrite Rabs_R0 in H; lra. }
  rewrite subproblem2_two by auto. cbv zeta.
  pose proof (sp2_gamma p q k1 k2 U1 U2 Hk ltac:(lra)) as G2. fold (sp2_g p q k1 k2) in G2.
  destruct (sp2_off p q k1 k2 U1 U2 Hk ltac:(lra) N (sp2_g p q k1 k2)) as [(a1 & Ea1 & _) (b1 & Eb1 & _)]; [auto|].
  destruct (sp2_off p q k1 k2 U1 U2 Hk ltac:(lra) N (- sp2_g p q k1 k2)) as [(a2 & Ea2 & _) (b2 & Eb2 & _)]; [lra|].
  fold (sp2_c p q k1 k2 (sp2_g p q k1 k2)) in Ea1, Eb1. fold (sp2_c p q k1 k2 (- sp2_g p q k1 k2)) in Ea2, Eb2.
  exists a1, b1, a2, b2. rewrite Ea1, Ea2, Eb1, Eb2. cbn [bind]. auto.
Qed.
Lemma subproblem2_two_sound p q k1 k2 g a b : unit3 k1 -> unit3 k2 -> eps <= Rabs (1 - dot k1 k2 * dot k1 k2) ->
  eps <= cone_gap p q k1 k2 -> dot p p = dot q q -> g * g = sp2_g p q k1 k2 * sp2_g p q k1 k2 ->
  subproblem1 q (sp2_c p q k1 k2 g) k1 = Ok a -> subproblem1 p (sp2_c p q k1 k2 g) k2 = Ok b ->
  norm (vsub (mvec (rot k1 (- a)) (mvec (rot k2 b) p)) q) < 2 * sqrt_eps /\
  (a <> 0 -> b <> 0 -> mvec (rot k1 (- a)) (mvec (rot k2 b) p) = q).
Proof.
  intros U1 U2 H G N Hg Ea Eb. pose proof eps_pos as e0.
  assert (Hk : dot k1 k2 * dot k1 k2 <> 1).
  { intros E; rewrite E in H; replace (1 - 1) with 0 in H by ring; rewrite Rabs_R0 in H; lra. }
  pose proof (sp2_gamma p q k1 k2 U1 U2 Hk ltac:(lra)) as G2. fold (sp2_g p q k1 k2) in G2.
  destruct (sp2_off p q k1 k2 U1 U2 Hk ltac:(lra) N g) as [(a' & Ea' & Fa & Na & Sa) (b' & Eb' & Fb & Nb & Sb)]; [rewrite Hg; auto|].
  fold (sp2_c p q k1 k2 g) in Ea', Eb', Fa, Fb, Na, Nb, Sa, Sb.
  rewrite Ea in Ea'. rewrite Eb in Eb'. inversion Ea'; inversion Eb'; subst a' b'.
  set (c := sp2_c p q k1 k2 g) in *. clearbody c.
  split.
  - replace (vsub (mvec (rot k1 (- a)) (mvec (rot k2 b) p)) q) with
      (vadd (mvec (rot k1 (- a)) (vsub (mvec (rot k2 b) p) c)) (mvec (rot k1 (- a)) (vsub c (mvec (rot k1 a) q)))).
    2: { rewrite !mvec_vsub, (rot_neg_back k1 a q _ U1 eq_refl).
         generalize (mvec (rot k1 (- a)) (mvec (rot k2 b) p)), (mvec (rot k1 (- a)) c). intros; la_ring. }
    eapply Rle_lt_trans; [apply norm_triangle|]. rewrite !SO3_norm by auto using rot_SO3.
    rewrite (norm_vsub_sym c). lra.
  - intros A B. rewrite Fb, <- Fa. apply rot_neg_back with (t := a); auto.
    + destruct (Rlt_le_dec (norm (vsub q c)) sqrt_eps) as [L|L]; auto. apply Sa in L. congruence.
    + destruct (Rlt_le_dec (norm (vsub p c)) sqrt_eps) as [L|L]; auto. apply Sb in L. congruence.
Qed.
(** A solution crosses at one of the two points. *)
Lemma subproblem2_point p q k1 k2 t1 t2 : unit3 k1 -> unit3 k2 -> dot k1 k2 * dot k1 k2 <> 1 ->
  mvec (rot k1 t1) (mvec (rot k2 t2) p) = q ->
  let v := mvec (rot k2 t2) p in
  cone_gap p q k1 k2 * dot (cross k1 k2) (cross k1 k2) = dot v (cross k1 k2) * dot v (cross k1 k2) /\
  (v = sp2_c p q k1 k2 (sp2_g p q k1 k2) \/ v = sp2_c p q k1 k2 (- sp2_g p q k1 k2)).
Proof.
  intros U1 U2 Hk E v.
  assert (V1 : dot v k1 = dot q k1) by (rewrite <- E; symmetry; apply rot_dot_axis; auto).
  assert (V2 : dot v k2 = dot p k2) by (apply rot_dot_axis; auto).
  assert (V3 : dot v v = dot p p) by (apply SO3_dot, rot_SO3; auto).
  pose proof (sp2_gap_point p q k1 k2 U1 U2 Hk v V1 V2 V3) as G. split; auto.
  pose proof (sp2_point p q k1 k2 U1 U2 Hk v V1 V2) as P. fold (sp2_c p q k1 k2) in P.
  pose proof (sp2_n2 k1 k2 U1 U2) as N2. pose proof (sp2_k12 k1 k2 U1 U2) as K. set (n := cross k1 k2) in *.
  assert (N0 : 0 < dot n n) by lra.
  assert (Np : 0 < norm n) by (apply norm_pos, (sp2_n0 k1 k2); auto).
  set (g := dot v n / dot n n) in *.
  assert (Gp : 0 <= cone_gap p q k1 k2) by nra.
  assert (Q : g * g = sp2_g p q k1 k2 * sp2_g p q k1 k2).
  { unfold sp2_g. fold n. replace (sqrt (cone_gap p q k1 k2) / norm n * (sqrt (cone_gap p q k1 k2) / norm n))
      with (sqrt (cone_gap p q k1 k2) * sqrt (cone_gap p q k1 k2) / (norm n * norm n)) by (field; lra).
    rewrite sqrt_sqrt, norm_sq by auto. unfold g. apply (Rmult_eq_reg_r (dot n n * dot n n)); [|nra].
    replace (dot v n / dot n n * (dot v n / dot n n) * (dot n n * dot n n)) with (dot v n * dot v n) by (field; lra).
    rewrite <- G. field. lra. }
  assert (g = sp2_g p q k1 k2 \/ g = - sp2_g p q k1 k2) as [<-|<-].
  { assert ((g - sp2_g p q k1 k2) * (g + sp2_g p q k1 k2) = 0) by lra. apply Rmult_integral in H as []; [left|right]; lra. }
  left; auto. right; auto.
Qed.
Lemma subproblem2_no_solution p q k1 k2 t1 t2 : unit3 k1 -> unit3 k2 -> dot k1 k2 * dot k1 k2 <> 1 ->
  mvec (rot k1 t1) (mvec (rot k2 t2) p) = q -> 0 <= cone_gap p q k1 k2.
Proof.
  intros U1 U2 Hk E. destruct (subproblem2_point p q k1 k2 t1 t2 U1 U2 Hk E) as [G _].
  pose proof (sp2_n2 k1 k2 U1 U2) as N2. pose proof (sp2_k12 k1 k2 U1 U2) as K.
  set (v := dot (mvec (rot k2 t2) p) (cross k1 k2)) in *. rewrite N2 in G. nra.
Qed.
Lemma subproblem1_complete_near p k a t : unit3 k -> perp k p <> vzero ->
  subproblem1 p (mvec (rot k a) p) k = Ok t -> ang_eq t a \/ (t = 0 /\ norm (vsub (mvec (rot k a) p) p) < sqrt_eps).
Proof.
  intros U P E. destruct (Rlt_le_dec (norm (vsub p (mvec (rot k a) p))) sqrt_eps) as [S|S].
  - right. rewrite subproblem1_short in E by auto. inversion E. rewrite norm_vsub_sym. auto.
  - left. eapply subproblem1_complete; eauto.
Qed.
Lemma subproblem2_complete p q k1 k2 t1 t2 : unit3 k1 -> unit3 k2 -> eps <= Rabs (1 - dot k1 k2 * dot k1 k2) ->
  mvec (rot k1 t1) (mvec (rot k2 t2) p) = q -> eps <= cone_gap p q k1 k2 ->
  exists l s1 s2, subproblem2 p q k1 k2 = Ok l /\ In (s1, s2) l /\
    (ang_eq s1 t1 \/ (s1 = 0 /\ norm (vsub (mvec (rot k2 t2) p) q) < sqrt_eps)) /\
    (ang_eq s2 t2 \/ (s2 = 0 /\ norm (vsub (mvec (rot k2 t2) p) p) < sqrt_eps)).
Proof.
  intros U1 U2 H E G. pose proof eps_pos as e0.
  assert (Hk : dot k1 k2 * dot k1 k2 <> 1).
  { intros F; rewrite F in H; replace (1 - 1) with 0 in H by ring; rewrite Rabs_R0 in H; lra. }
  assert (N : dot p p = dot q q) by (rewrite <- E, !SO3_dot by auto using rot_SO3; auto).
  destruct (subproblem2_two_ok p q k1 k2 U1 U2 H G N) as (a1 & b1 & a2 & b2 & Es & A1 & B1 & A2 & B2).
  destruct (sp2_gaps p q k1 k2 U1 U2 Hk) as [G1 G2].
  assert (Pp : perp k2 p <> vzero) by (apply perp_nonzero; auto; lra).
  assert (Pq : perp k1 q <> vzero) by (apply perp_nonzero; auto; lra).
  assert (Eb : mvec (rot k2 t2) p = mvec (rot k1 (- t1)) q) by (symmetry; apply rot_neg_back; auto).
  assert (K : forall a b g, subproblem1 q (sp2_c p q k1 k2 g) k1 = Ok a -> subproblem1 p (sp2_c p q k1 k2 g) k2 = Ok b ->
    mvec (rot k2 t2) p = sp2_c p q k1 k2 g ->
    (ang_eq (- a) t1 \/ (- a = 0 /\ norm (vsub (mvec (rot k2 t2) p) q) < sqrt_eps)) /\
    (ang_eq b t2 \/ (b = 0 /\ norm (vsub (mvec (rot k2 t2) p) p) < sqrt_eps))).
  { intros a b g A B V. rewrite <- V in A, B. split; [|apply subproblem1_complete_near; auto].
    rewrite Eb in A |- *. apply subproblem1_complete_near in A; auto. destruct A as [A|[-> A]].
    - left. apply ang_eq_opp in A. rewrite Ropp_involutive in A. auto.
    - right. split; [ring|auto]. }
  destruct (subproblem2_point p q k1 k2 t1 t2 U1 U2 Hk E) as [_ [V|V]].
  - exists [(- a1, b1); (- a2, b2)], (- a1), b1. split; auto. split; [left; auto|]. eapply K; eauto.
  - exists [(- a1, b1); (- a2, b2)], (- a2), b2. split; auto. split; [right; left; auto|]. eapply K; eauto.
Qed.

(* ---------- subproblem 3 ---------- *)
Lemma sp3_dist k p q t : unit3 k ->
  dot (vadd q (mvec (rot k t) p)) (vadd q (mvec (rot k t) p)) =
  dot k (vadd p q) * dot k (vadd p q) +
  (dot (perp k p) (perp k p) + dot (perp k q) (perp k q) + 2 * dot (mvec (rot k t) (perp k p)) (perp k q)).
Proof.
  intros U. rewrite dot_vadd_l, !dot_vadd_r, SO3_dot by auto using rot_SO3.
  rewrite (dot_comm q (mvec _ _)), (dot_perp k (mvec (rot k t) p) q), perp_rot_perp, rot_dot_axis by auto.
  rewrite !perp_norm, (dot_comm k p), (dot_comm k q) by auto. ring.
Qed.
Lemma perp_dir k v : unit3 k -> perp k (dir (perp k v)) = dir (perp k v).
Proof.
  intros U. unfold perp at 1. unfold dir at 2. rewrite dot_vscale_l, (dot_comm (perp k v) k), perp_dot by auto.
  rewrite Rmult_0_r, vscale_0. generalize (dir (perp k v)). intros; la_ring.
Qed.
(** subproblem1 on the directions: the true angle, or 0 when they nearly agree. *)
Lemma subproblem1_dirs k p q : unit3 k -> perp k p <> vzero -> perp k q <> vzero ->
  exists t t0, subproblem1 (dir (perp k p)) (dir (perp k q)) k = Ok t /\
    mvec (rot k t0) (dir (perp k p)) = dir (perp k q) /\ - PI < t <= PI /\
    (t = t0 \/ (t = 0 /\ norm (vsub (mvec (rot k t0) (dir (perp k p))) (dir (perp k p))) < sqrt_eps)).
Proof.
  intros U P Q. set (e := dir (perp k p)). set (f := dir (perp k q)).
  assert (Ue : unit3 e) by (apply dir_unit; auto). assert (Uf : unit3 f) by (apply dir_unit; auto).
  assert (Ke : dot k e = 0) by (unfold e, dir; rewrite dot_vscale_r, perp_dot by auto; ring).
  assert (Kf : dot k f = 0) by (unfold f, dir; rewrite dot_vscale_r, perp_dot by auto; ring).
  pose proof PI_pos.
  destruct (Rlt_le_dec (norm (vsub e f)) sqrt_eps) as [S|S].
  - destruct (subproblem0_correct e f k) as (t0 & _ & _ & R0); auto using unit_nonzero.
    rewrite !dir_of_unit in R0 by auto. exists 0, t0. rewrite subproblem1_short by auto. rewrite R0, norm_vsub_sym. repeat split; auto; lra.
  - pose proof (perp_dir k p U) as Pe. pose proof (perp_dir k q U) as Pf. fold e in Pe. fold f in Pf.
    destruct (subproblem1_off e f k) as (t & E & Rg & F); auto; try (rewrite Pe || rewrite Pf; apply unit_nonzero; auto).
    rewrite Pe, Pf, !dir_of_unit in F by auto. exists t, t. rewrite E. auto.
Qed.
(** The shape of subproblem3's answer off the axis. *)
Lemma subproblem3_cases k p q d : unit3 k -> perp k p <> vzero -> perp k q <> vzero ->
  let bb := (d * d - dot k (vadd p q) * dot k (vadd p q) - dot (perp k p) (perp k p) - dot (perp k q) (perp k q)) /
            (2 * norm (perp k p) * norm (perp k q)) in
  (subproblem3 p q k d = Ok [] /\ (Rabs bb > 1 \/ d * d < dot k (vadd p q) * dot k (vadd p q))) \/
  exists t t0, - PI < t <= PI /\
    mvec (rot k t0) (dir (perp k p)) = dir (perp k q) /\
    (t = t0 \/ (t = 0 /\ norm (vsub (mvec (rot k t0) (dir (perp k p))) (dir (perp k p))) < sqrt_eps)) /\
    -1 <= bb <= 1 /\
    (subproblem3 p q k d = Ok [t + acos bb; t - acos bb] \/ (acos bb = 0 /\ subproblem3 p q k d = Ok [t])).
Proof.
  intros U P Q bb. unfold subproblem3. fold (perp k p) (perp k q). cbv zeta.
  pose proof (norm_pos _ P) as Np. pose proof (norm_pos _ Q) as Nq.
  rcase (Rltb (d * d - dot k (vadd p q) * dot k (vadd p q)) 0).
  { left. split; auto. right. lra. }
  assert (D : 2 * norm (perp k p) * norm (perp k q) <> 0) by nra.
  rewrite (proj2 (Reqb_false _ _) D).
  replace (- (dot (perp k p) (perp k p) + dot (perp k q) (perp k q) - (d * d - dot k (vadd p q) * dot k (vadd p q))) /
           (2 * norm (perp k p) * norm (perp k q))) with bb by (unfold bb; field; lra).
  rcase (Rltb 1 (Rabs bb)).
  { left. split; auto. }
  right. destruct (subproblem1_dirs k p q U P Q) as (t & t0 & E & F & Rg & Cc).
  rewrite !vdiv_dir, E. cbn [bind]. exists t, t0. split; [auto|]. split; [auto|]. split; [auto|].
  split; [apply Rabs_le_iff; auto|].
  pose proof (acos_bound bb).
  rcase (Rltb 0 (Rabs (acos bb))).
  - left. auto.
  - right. split; auto. rewrite Rabs_right in * by lra. lra.
Qed.
Lemma rot_rot k a b v : unit3 k -> mvec (rot k a) (mvec (rot k b) v) = mvec (rot k (a + b)) v.
Proof. intros U. rewrite <- rot_add, mvec_mmul by auto. reflexivity. Qed.
(** Angle between the rotated p and q. *)
Lemma sp3_angle k p q t0 x : unit3 k -> perp k p <> vzero -> perp k q <> vzero ->
  mvec (rot k t0) (dir (perp k p)) = dir (perp k q) ->
  dot (mvec (rot k (t0 + x)) (perp k p)) (perp k q) = norm (perp k p) * norm (perp k q) * cos x.
Proof.
  intros U P Q F.
  rewrite <- (dir_scale (perp k p)) at 1 by auto. rewrite <- (dir_scale (perp k q)) at 1 by auto.
  rewrite mvec_vscale, dot_vscale_l, dot_vscale_r, Rplus_comm, <- rot_rot, F by auto.
  assert (Kf : dot k (dir (perp k q)) = 0) by (unfold dir; rewrite dot_vscale_r, perp_dot by auto; ring).
  destruct (plane_rot_angle k (dir (perp k q)) x) as [C _]; auto using dir_unit.
  rewrite (dot_comm (mvec _ _)), C. ring.
Qed.
Lemma sp3_exact k p q d t0 x : unit3 k -> perp k p <> vzero -> perp k q <> vzero ->
  mvec (rot k t0) (dir (perp k p)) = dir (perp k q) ->
  (dot (vadd q (mvec (rot k (t0 + x)) p)) (vadd q (mvec (rot k (t0 + x)) p)) = d * d <->
   cos x = (d * d - dot k (vadd p q) * dot k (vadd p q) - dot (perp k p) (perp k p) - dot (perp k q) (perp k q)) /
            (2 * norm (perp k p) * norm (perp k q))).
Proof.
  intros U P Q F. rewrite sp3_dist, (sp3_angle k p q t0 x) by auto.
  pose proof (norm_pos _ P) as Np. pose proof (norm_pos _ Q) as Nq.
  set (a := norm (perp k p)) in *. set (b := norm (perp k q)) in *.
  set (A := dot (perp k p) (perp k p)). set (B := dot (perp k q) (perp k q)). set (D := dot k (vadd p q) * dot k (vadd p q)).
  split; intros E.
  - replace (d * d) with (D + (A + B + 2 * (a * b * cos x))) by lra. field. lra.
  - rewrite E. field. lra.
Qed.
Lemma norm_dist_le a b : Rabs (norm a - norm b) <= norm (vsub a b).
Proof.
  apply Rabs_le_iff. split.
  - pose proof (norm_triangle (vsub b a) a). rewrite vsub_vadd, (norm_vsub_sym b a) in H. lra.
  - pose proof (norm_triangle (vsub a b) b). rewrite vsub_vadd in H. lra.
Qed.
(** The shortcut in subproblem1 moves the rotated p by less than |pp| sqrt(eps). *)
Lemma sp3_shift k p q t0 t x : unit3 k -> perp k p <> vzero ->
  mvec (rot k t0) (dir (perp k p)) = dir (perp k q) ->
  (t = t0 \/ (t = 0 /\ norm (vsub (mvec (rot k t0) (dir (perp k p))) (dir (perp k p))) < sqrt_eps)) ->
  norm (vsub (mvec (rot k (t + x)) p) (mvec (rot k (t0 + x)) p)) < norm (perp k p) * sqrt_eps.
Proof.
  intros U P F C. pose proof (norm_pos _ P) as Np. pose proof sqrt_eps_pos.
  destruct C as [->|[-> C]].
  - rewrite vsub_self, norm_vzero. nra.
  - rewrite (Rplus_comm t0 x), Rplus_0_l, <- (rot_rot k x t0), <- mvec_vsub, SO3_norm by auto using rot_SO3.
    rewrite norm_vsub_sym. rewrite perp_rot by auto.
    replace (vsub (vadd (vscale (dot p k) k) (mvec (rot k t0) (perp k p))) p)
      with (vscale (norm (perp k p)) (vsub (mvec (rot k t0) (dir (perp k p))) (dir (perp k p)))).
    + rewrite norm_vscale, Rabs_right by lra. apply Rmult_lt_compat_l; auto.
    + replace (mvec (rot k t0) (perp k p)) with (vscale (norm (perp k p)) (mvec (rot k t0) (dir (perp k p)))).
      2: { rewrite <- mvec_vscale, dir_scale; auto. }
      replace (vscale (norm (perp k p)) (vsub (mvec (rot k t0) (dir (perp k p))) (dir (perp k p)))) with
        (vsub (vscale (norm (perp k p)) (mvec (rot k t0) (dir (perp k p)))) (vscale (norm (perp k p)) (dir (perp k p)))).
      2: { generalize (mvec (rot k t0) (dir (perp k p))), (dir (perp k p)), (norm (perp k p)). intros; la_ring. }
      rewrite (dir_scale (perp k p)) by auto. pose proof (perp_decomp k p) as Ep.
      remember (vscale (norm (perp k p)) (mvec (rot k t0) (dir (perp k p)))) as X. remember (perp k p) as w.
      remember (vscale (dot p k) k) as s. rewrite Ep. clear. la_ring.
Qed.
Lemma norm_of_sq v d : 0 <= d -> dot v v = d * d -> norm v = d.
Proof. intros H E. unfold norm, norm2. rewrite E. apply sqrt_square; auto. Qed.
Lemma norm_to_sq v d : norm v = d -> dot v v = d * d.
Proof. intros <-. symmetry. apply norm_sq. Qed.
Lemma sp3_on_axis k p q d : unit3 k -> (perp k p = vzero \/ perp k q = vzero) ->
  (subproblem3 p q k d = Err AssertionError /\ forall t, dot (vadd q (mvec (rot k t) p)) (vadd q (mvec (rot k t) p)) = d * d) \/
  (subproblem3 p q k d = Ok [] /\ forall t, dot (vadd q (mvec (rot k t) p)) (vadd q (mvec (rot k t) p)) <> d * d).
Proof.
  intros U H. unfold subproblem3. fold (perp k p) (perp k q). cbv zeta.
  assert (D : 2 * norm (perp k p) * norm (perp k q) = 0) by (destruct H as [H|H]; rewrite H, norm_vzero; ring).
  assert (X : forall t, dot (mvec (rot k t) (perp k p)) (perp k q) = 0).
  { intros t. destruct H as [H|H]; rewrite H, ?mvec_vzero; [generalize (perp k q)|generalize (mvec (rot k t) (perp k p))]; intros; la_ring. }
  assert (V : forall t, dot (vadd q (mvec (rot k t) p)) (vadd q (mvec (rot k t) p)) =
     dot k (vadd p q) * dot k (vadd p q) + (dot (perp k p) (perp k p) + dot (perp k q) (perp k q))).
  { intros t. rewrite sp3_dist, X by auto. ring. }
  pose proof (dot_self_nonneg (perp k p)). pose proof (dot_self_nonneg (perp k q)).
  rcase (Rltb (d * d - dot k (vadd p q) * dot k (vadd p q)) 0).
  { right. split; auto. intros t. rewrite V. lra. }
  rewrite D, Reqb_refl. rcase (Reqb (- (dot (perp k p) (perp k p) + dot (perp k q) (perp k q) - (d * d - dot k (vadd p q) * dot k (vadd p q)))) 0).
  - left. split; auto. intros t. rewrite V. lra.
  - right. split; auto. intros t. rewrite V. lra.
Qed.
Lemma subproblem3_sound k p q d l t : unit3 k -> 0 <= d -> subproblem3 p q k d = Ok l -> In t l ->
  Rabs (norm (vadd q (mvec (rot k t) p)) - d) < norm (perp k p) * sqrt_eps.
Proof.
  intros U D E I.
  destruct (vec3_dec (perp k p)) as [P|P].
  { destruct (sp3_on_axis k p q d U (or_introl P)) as [[F _]|[F _]]; rewrite F in E; inversion E; subst; destruct I. }
  destruct (vec3_dec (perp k q)) as [Q|Q].
  { destruct (sp3_on_axis k p q d U (or_intror Q)) as [[F _]|[F _]]; rewrite F in E; inversion E; subst; destruct I. }
  destruct (subproblem3_cases k p q d U P Q) as [[F _]|(s & t0 & Rg & F & C & B & Es)].
  { rewrite F in E; inversion E; subst; destruct I. }
  set (bb := (_ / _)) in *.
  assert (T : exists x, t = s + x /\ cos x = bb).
  { destruct Es as [Es|[A0 Es]]; rewrite Es in E; inversion E; subst l; destruct I as [<-|I].
    - exists (acos bb). rewrite cos_acos; auto.
    - destruct I as [<-|[]]. exists (- acos bb). rewrite cos_neg, cos_acos; auto.
    - exists 0. split. ring. rewrite <- A0. apply cos_acos; auto.
    - destruct I. }
  destruct T as (x & -> & Cx).
  assert (Ex : norm (vadd q (mvec (rot k (t0 + x)) p)) = d).
  { apply norm_of_sq; auto. apply sp3_exact; auto. }
  rewrite <- Ex. eapply Rle_lt_trans; [apply norm_dist_le|].
  replace (vsub (vadd q (mvec (rot k (s + x)) p)) (vadd q (mvec (rot k (t0 + x)) p))) with
    (vsub (mvec (rot k (s + x)) p) (mvec (rot k (t0 + x)) p)).
  2: { generalize (mvec (rot k (s + x)) p), (mvec (rot k (t0 + x)) p). intros; la_ring. }
  eapply sp3_shift; eauto.
Qed.
(** Exact away from the shortcut. *)
Lemma subproblem3_sound_exact k p q d l t : unit3 k -> 0 <= d -> subproblem3 p q k d = Ok l -> In t l ->
  sqrt_eps <= norm (vsub (dir (perp k p)) (dir (perp k q))) ->
  norm (vadd q (mvec (rot k t) p)) = d.
Proof.
  intros U D E I S.
  destruct (vec3_dec (perp k p)) as [P|P].
  { destruct (sp3_on_axis k p q d U (or_introl P)) as [[F _]|[F _]]; rewrite F in E; inversion E; subst; destruct I. }
  destruct (vec3_dec (perp k q)) as [Q|Q].
  { destruct (sp3_on_axis k p q d U (or_intror Q)) as [[F _]|[F _]]; rewrite F in E; inversion E; subst; destruct I. }
  destruct (subproblem3_cases k p q d U P Q) as [[F _]|(s & t0 & Rg & F & C & B & Es)].
  { rewrite F in E; inversion E; subst; destruct I. }
  set (bb := (_ / _)) in *.
  destruct C as [->|[-> C]]; [|rewrite F, norm_vsub_sym in C; lra].
  assert (T : exists x, t = t0 + x /\ cos x = bb).
  { destruct Es as [Es|[A0 Es]]; rewrite Es in E; inversion E; subst l; destruct I as [<-|I].
    - exists (acos bb). rewrite cos_acos; auto.
    - destruct I as [<-|[]]. exists (- acos bb). rewrite cos_neg, cos_acos; auto.
    - exists 0. split. ring. rewrite <- A0. apply cos_acos; auto.
    - destruct I. }
  destruct T as (x & -> & Cx). apply norm_of_sq; auto. apply sp3_exact; auto.
Qed.
Lemma subproblem3_complete k p q d a : unit3 k -> norm (vadd q (mvec (rot k a) p)) = d ->
  perp k p <> vzero -> perp k q <> vzero ->
  exists l s, subproblem3 p q k d = Ok l /\ In s l /\
    norm (vsub (mvec (rot k s) p) (mvec (rot k a) p)) < norm (perp k p) * sqrt_eps /\
    (sqrt_eps <= norm (vsub (dir (perp k p)) (dir (perp k q))) -> ang_eq s a).
Proof.
  intros U E P Q. apply norm_to_sq in E.
  destruct (subproblem1_dirs k p q U P Q) as (_ & w & _ & W & _).
  replace a with (w + (a - w)) in E by ring. apply (sp3_exact k p q d w (a - w) U P Q W) in E.
  destruct (subproblem3_cases k p q d U P Q) as [[_ F]|(s & t0 & Rg & F & C & B & Es)].
  - exfalso. set (bb := (_ / _)) in *. pose proof (Rabs_cos_le (a - w)). destruct F as [F|F].
    + rewrite <- E in F. assert (Rabs (cos (a - w)) <= 1) by (apply Rabs_le_iff; auto). lra.
    + apply (sp3_exact k p q d w (a - w) U P Q W) in E. replace (w + (a - w)) with a in E by ring.
      rewrite sp3_dist in E by auto. pose proof (dot_self_nonneg (vadd (mvec (rot k a) (perp k p)) (perp k q))) as G.
      rewrite dot_vadd_l, !dot_vadd_r, SO3_dot, (dot_comm (perp k q) (mvec _ _)) in G by auto using rot_SO3. lra.
  - set (bb := (_ / _)) in *.
    (* a = t0 +- acos bb up to turns *)
    assert (Z : ang_eq w t0).
    { apply (rot_perp_unique k (dir (perp k p))); auto.
      - rewrite perp_dir by auto. apply unit_nonzero, dir_unit; auto.
      - rewrite W, F. auto. }
    rewrite <- (cos_acos bb) in E by auto.
    assert (X : exists x, ang_eq (t0 + x) a /\ (x = acos bb \/ x = - acos bb)).
    { destruct (cos_eq_pm _ _ E) as [H|H].
      - exists (acos bb). split; auto. pose proof (ang_eq_add _ _ _ _ (ang_eq_sym _ _ Z) (ang_eq_sym _ _ H)) as G.
        replace (w + (a - w)) with a in G by ring. auto.
      - exists (- acos bb). split; auto. pose proof (ang_eq_add _ _ _ _ (ang_eq_sym _ _ Z) (ang_eq_sym _ _ H)) as G.
        replace (w + (a - w)) with a in G by ring. auto. }
    destruct X as (x & Ax & Hx).
    assert (L : exists l, subproblem3 p q k d = Ok l /\ In (s + x) l).
    { destruct Es as [Es|[A0 Es]].
      - exists [s + acos bb; s - acos bb]. split; auto. destruct Hx as [->| ->]; [left|right; left]; auto.
      - exists [s]. split; auto. left. destruct Hx as [->| ->]; rewrite A0; ring. }
    destruct L as (l & El & Il). exists l, (s + x). split; auto. split; auto. split.
    + rewrite <- (rot_ang_eq k _ _ Ax) by auto. eapply sp3_shift; eauto.
    + intros S. destruct C as [->|[_ C]]; auto. rewrite F, norm_vsub_sym in C. lra.
Qed.
Lemma subproblem3_empty k p q d a : unit3 k -> subproblem3 p q k d = Ok [] -> norm (vadd q (mvec (rot k a) p)) <> d.
Proof.
  intros U E N. pose proof N as N2. apply norm_to_sq in N2.
  destruct (vec3_dec (perp k p)) as [P|P].
  { destruct (sp3_on_axis k p q d U (or_introl P)) as [[F _]|[_ F]]; [rewrite F in E; discriminate|]. apply (F a); auto. }
  destruct (vec3_dec (perp k q)) as [Q|Q].
  { destruct (sp3_on_axis k p q d U (or_intror Q)) as [[F _]|[_ F]]; [rewrite F in E; discriminate|]. apply (F a); auto. }
  destruct (subproblem3_complete k p q d a U N P Q) as (l & s & El & I & _). rewrite E in El. inversion El; subst. destruct I.
Qed.

(* ---------- subproblem 4 ---------- *)
Lemma sp4_value p q k t :
  dot p (mvec (rot k t) q) =
  dot p q + dot p (mvec (hat k) (mvec (hat k) q)) + dot p (mvec (hat k) q) * sin t - dot p (mvec (hat k) (mvec (hat k) q)) * cos t.
Proof. rewrite mvec_rot, !hat_cross. rewrite !dot_vadd_r, !dot_vscale_r. ring. Qed.
Section SP4.
Context (p q k : vec3) (d : R).
Let a := dot p (mvec (hat k) q).
Let b := - dot p (mvec (hat k) (mvec (hat k) q)).
Let c := d - (dot p q - b).
Let phi := atan2 b a.
Let n := sqrt (a * a + b * b).
Lemma sp4_polar t : dot p (mvec (rot k t) q) = d <-> n * sin (t + phi) = c.
Proof.
  rewrite sp4_value. fold a. unfold c. rewrite sin_plus.
  pose proof (atan2_cos b a) as C. pose proof (atan2_sin b a) as S. fold n phi in C, S.
  replace (n * (sin t * cos phi + cos t * sin phi)) with (sin t * (n * cos phi) + cos t * (n * sin phi)) by ring.
  rewrite C, S. unfold b. split; intros; lra.
Qed.
Lemma sp4_n_nonneg : 0 <= n. Proof. apply sqrt_pos. Qed.
Lemma sp4_gt t : (dot p (mvec (rot k t) q) < d <-> n * sin (t + phi) < c) /\ (d < dot p (mvec (rot k t) q) <-> c < n * sin (t + phi)).
Proof.
  rewrite sp4_value. fold a. unfold c. rewrite sin_plus.
  pose proof (atan2_cos b a) as C. pose proof (atan2_sin b a) as S. fold n phi in C, S.
  replace (n * (sin t * cos phi + cos t * sin phi)) with (sin t * (n * cos phi) + cos t * (n * sin phi)) by ring.
  rewrite C, S. unfold b. split; split; intros; lra.
Qed.
(** The four cases. *)
Lemma subproblem4_cases :
  (subproblem4 p q k d = [] /\ forall t, dot p (mvec (rot k t) q) < d) \/
  (subproblem4 p q k d = [NaN; NaN] /\ forall t, d < dot p (mvec (rot k t) q)) \/
  (subproblem4 p q k d = [NaN; NaN] /\ forall t, dot p (mvec (rot k t) q) = d) \/
  (exists s1 s2, subproblem4 p q k d = [Fin s1; Fin s2] /\ s1 = asin (c / n) - phi /\ s2 = PI - asin (c / n) - phi /\
   dot p (mvec (rot k s1) q) = d /\ dot p (mvec (rot k s2) q) = d /\
   (forall t, dot p (mvec (rot k t) q) = d -> ang_eq s1 t \/ ang_eq s2 t) /\
   exists u, dot p (mvec (rot k u) q) <> d).
Proof.
  unfold subproblem4. fold a. fold b. fold c phi n. pose proof sp4_n_nonneg as N0.
  rcase (Reqb n 0).
  - assert (n = 0) by auto. rcase (Rltb 0 c).
    + left. split; auto. intros t. apply sp4_gt. rewrite H. lra.
    + destruct (Req_dec c 0) as [Z|Z].
      * right; right; left. split; auto. intros t. apply sp4_polar. rewrite H. lra.
      * right; left. split; auto. intros t. apply sp4_gt. rewrite H. lra.
  - assert (Np : 0 < n) by lra. set (x := c / n). assert (Ec : c = x * n) by (unfold x; field; lra).
    rcase (Rltb 1 x).
    + left. split; auto. intros t. apply sp4_gt. rewrite Ec. pose proof (Rabs_sin_le (t + phi)). nra.
    + rcase (Rltb x (-1)).
      * right; left. split; auto. intros t. apply sp4_gt. rewrite Ec. pose proof (Rabs_sin_le (t + phi)). nra.
      * right; right; right. exists (asin x - phi), (PI - asin x - phi).
        
        split; [replace (- phi + asin x) with (asin x - phi) by ring;
                replace (- phi - asin x + PI) with (PI - asin x - phi) by ring; auto|]. split; [auto|]. split; [auto|].
        assert (Sx : sin (asin x) = x) by (apply sin_asin; lra).
        split; [|split; [|split]].
        -- apply sp4_polar. replace (asin x - phi + phi) with (asin x) by ring. rewrite Sx. lra.
        -- apply sp4_polar. replace (PI - asin x - phi + phi) with (PI - asin x) by ring. rewrite sin_PI_x, Sx. lra.
        -- intros t E. apply sp4_polar in E.
           assert (Es : sin (t + phi) = sin (asin x)) by (rewrite Sx; apply (Rmult_eq_reg_l n); lra).
           destruct (sin_eq_pm _ _ Es) as [H|H]; [left|right]; apply ang_eq_sym.
           ++ replace t with (t + phi - phi) by ring. apply ang_eq_sub; auto using ang_eq_refl.
           ++ replace t with (t + phi - phi) by ring. apply ang_eq_sub; auto using ang_eq_refl.
        -- destruct (Req_dec c n) as [Z|Z].
           ++ exists (- (PI / 2) - phi). rewrite sp4_polar. replace (- (PI / 2) - phi + phi) with (- (PI / 2)) by ring.
              rewrite sin_neg, sin_PI2. lra.
           ++ exists (PI / 2 - phi). rewrite sp4_polar. replace (PI / 2 - phi + phi) with (PI / 2) by ring.
              rewrite sin_PI2. lra.
Qed.
End SP4.
