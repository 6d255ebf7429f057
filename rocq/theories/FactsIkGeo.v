(** Geometry shared by the closed-form inverse kinematics: an arm solved by subproblems
    3 and 1, a wrist solved by subproblems 2 and 1. *)
From Coq Require Import Reals ZArith List Bool Lia Lra Psatz.
From Verif Require Import LinAlg RealAux Py FactsReal FactsLinAlg ModelRot SpecRot FactsRot
  ModelSub SpecSub FactsSub.
Import ListNotations.
Open Scope R_scope.

(** *** Ranges of the subproblem answers *)
Lemma subproblem1_range p q k t : unit3 k -> subproblem1 p q k = Ok t -> - PI < t <= PI.
Proof.
  intros U E. pose proof PI_pos. destruct (subproblem1_cases p q k t U E) as [[_ ->]|(_ & _ & _ & Rg & _)]; auto; lra.
Qed.
Lemma subproblem3_range p q k d l t : unit3 k -> subproblem3 p q k d = Ok l -> In t l -> - (2 * PI) <= t <= 2 * PI.
Proof.
  intros U E I. pose proof PI_pos.
  destruct (vec3_dec (perp k p)) as [P|P].
  { destruct (sp3_on_axis k p q d U (or_introl P)) as [[F _]|[F _]]; rewrite F in E; inversion E; subst; destruct I. }
  destruct (vec3_dec (perp k q)) as [Q|Q].
  { destruct (sp3_on_axis k p q d U (or_intror Q)) as [[F _]|[F _]]; rewrite F in E; inversion E; subst; destruct I. }
  destruct (subproblem3_cases k p q d U P Q) as [[F _]|(s & t0 & Rg & F & C & B & Es)].
  { rewrite F in E; inversion E; subst; destruct I. }
  set (bb := (_ / _)) in *. pose proof (acos_bound bb).
  destruct Es as [Es|[A0 Es]]; rewrite Es in E; inversion E; subst l; destruct I as [<-|I]; try lra.
  destruct I as [<-|[]]; lra. destruct I.
Qed.
Lemma subproblem4_range p q k d t : In (Fin t) (subproblem4 p q k d) -> - (3 / 2 * PI) <= t <= 5 / 2 * PI.
Proof.
  intros I. pose proof PI_pos.
  destruct (subproblem4_cases p q k d) as [[E _]|[[E _]|[[E _]|(s1 & s2 & E & -> & -> & _)]]]; rewrite E in I; simpl in I.
  - destruct I.
  - destruct I as [I|[I|[]]]; discriminate.
  - destruct I as [I|[I|[]]]; discriminate.
  - match type of E with context [asin ?x] => pose proof (asin_bound x) end.
    match type of E with context [atan2 ?y ?x] => pose proof (atan2_range y x) end.
    destruct I as [I|[I|[]]]; inversion I; subst; lra.
Qed.

(** *** Vectors *)
Lemma cross_norm_le a b : norm (cross a b) <= norm a * norm b.
Proof.
  pose proof (norm_nonneg a). pose proof (norm_nonneg b). pose proof (norm_nonneg (cross a b)).
  pose proof (lagrange a b) as L. unfold norm2 in L. rewrite <- !norm_sq in L.
  assert (0 <= norm a * norm b) by nra. nra.
Qed.
Lemma rot_exists k p q : unit3 k -> dot p p = dot q q -> dot k p = dot k q -> exists a, mvec (rot k a) p = q.
Proof.
  intros U N D.
  assert (Np : norm (perp k p) = norm (perp k q)).
  { apply norm_eq_of_dot. rewrite !perp_norm, (dot_comm p k), (dot_comm q k) by auto. rewrite N, D. reflexivity. }
  destruct (vec3_dec (perp k p)) as [P|P].
  - exists 0. rewrite rot_0, mvec_I. rewrite P, norm_vzero in Np. symmetry in Np. apply norm_zero in Np.
    rewrite (perp_decomp k p), (perp_decomp k q), P, Np, (dot_comm p k), (dot_comm q k), D. reflexivity.
  - assert (Q : perp k q <> vzero).
    { intros Q. rewrite Q, norm_vzero in Np. apply P, norm_zero; auto. }
    destruct (subproblem1_dirs k p q U P Q) as (_ & a & _ & A & _). exists a.
    rewrite perp_rot by auto. rewrite <- (dir_scale (perp k p)) by auto. rewrite mvec_vscale, A, Np, dir_scale by auto.
    rewrite (dot_comm p k), D, (dot_comm k q). symmetry. apply perp_decomp.
Qed.
Lemma perp_le k v : unit3 k -> norm (perp k v) <= norm v.
Proof. intros U. apply norm_le_of_dot. rewrite perp_norm by auto. nra. Qed.
Lemma perp_neg k v : perp (vneg k) v = perp k v.
Proof. unfold perp. la_ring. Qed.
Lemma unit_neg k : unit3 k -> unit3 (vneg k).
Proof. unfold unit3, norm2. rewrite dot_vneg_l, dot_vneg_r. intros ->. ring. Qed.

(** subproblem3's answers are within |P3| sqrt(eps) of true solutions *)
Lemma subproblem3_true p q k d l t : unit3 k -> 0 <= d -> subproblem3 p q k d = Ok l -> In t l ->
  exists t', norm (vadd q (mvec (rot k t') p)) = d /\
    norm (vsub (mvec (rot k t) p) (mvec (rot k t') p)) < norm (perp k p) * sqrt_eps /\
    (sqrt_eps <= norm (vsub (dir (perp k p)) (dir (perp k q))) -> t' = t).
Proof.
  intros U D E I.
  destruct (vec3_dec (perp k p)) as [P|P].
  { destruct (sp3_on_axis k p q d U (or_introl P)) as [[F _]|[F _]]; rewrite F in E; inversion E; subst; destruct I. }
  destruct (vec3_dec (perp k q)) as [Q|Q].
  { destruct (sp3_on_axis k p q d U (or_intror Q)) as [[F _]|[F _]]; rewrite F in E; inversion E; subst; destruct I. }
  destruct (subproblem3_cases k p q d U P Q) as [[F _]|(s & t0 & Rg & F & C & B & Es)].
  { rewrite F in E; inversion E; subst; destruct I. }
  set (bb := (_ / _)) in *.
  assert (T : exists x, t = s + x /\ cos x = bb).
  { destruct Es as [Es|[A0 Es]]; rewrite Es in E; inversion E; subst l; destruct I as [<-|I].
    - exists (acos bb). rewrite cos_acos; auto.
    - destruct I as [<-|[]]. exists (- acos bb). rewrite cos_neg, cos_acos; auto.
    - exists 0. split. ring. rewrite <- A0. apply cos_acos; auto.
    - destruct I. }
  destruct T as (x & -> & Cx). exists (t0 + x). split.
  { apply norm_of_sq; auto. apply sp3_exact; auto. }
  split. { eapply sp3_shift; eauto. }
  intros S. destruct C as [->|[_ C]]; auto. rewrite F, norm_vsub_sym in C. lra.
Qed.

(** h2 is h1 up to sign *)
Definition same_line (h1 h2 : vec3) : Prop := h2 = h1 \/ h2 = vneg h1.
Lemma same_line_unit h1 h2 : same_line h1 h2 -> unit3 h1 -> unit3 h2.
Proof. intros [->| ->]; auto using unit_neg. Qed.
Lemma same_line_dot h1 h2 t v : same_line h1 h2 -> unit3 h1 -> dot h1 (mvec (rot h2 t) v) = dot h1 v.
Proof.
  intros [->| ->] U; rewrite (dot_comm h1), (dot_comm h1).
  - apply rot_dot_axis; auto.
  - rewrite rot_neg. apply rot_dot_axis; auto.
Qed.

(** *** The arm: P2 + rot(h2,q3) P3 is turned about h1 onto w. *)
Lemma arm_sound h1 h2 P2 P3 w l t q3 t2 q2 : unit3 h1 -> same_line h1 h2 ->
  dot h1 w = dot h1 (vadd P2 P3) ->
  subproblem3 P3 P2 h2 (norm w) = Ok l -> In t l -> ang_eq q3 t ->
  subproblem1 (vadd P2 (mvec (rot h2 q3) P3)) w h1 = Ok t2 -> ang_eq q2 t2 ->
  norm (vsub (mvec (rot h1 q2) (vadd P2 (mvec (rot h2 q3) P3))) w) <= Rmax 1 (norm P3) * sqrt_eps /\
  (sqrt_eps <= norm (vsub (dir (perp h1 P3)) (dir (perp h1 P2))) ->
   (vadd P2 (mvec (rot h2 q3) P3) = w \/ sqrt_eps <= norm (vsub (vadd P2 (mvec (rot h2 q3) P3)) w)) ->
   mvec (rot h1 q2) (vadd P2 (mvec (rot h2 q3) P3)) = w).
Proof.
  intros U SL D E3 I A3 E1 A2. pose proof (same_line_unit _ _ SL U) as U2. pose proof sqrt_eps_pos as SE.
  rewrite (rot_ang_eq h2 _ _ A3) in *. rewrite (rot_ang_eq h1 _ _ A2).
  destruct (subproblem3_true P3 P2 h2 (norm w) l t U2 (norm_nonneg w) E3 I) as (t' & N & S & X).
  set (p2 := vadd P2 (mvec (rot h2 t) P3)) in *. set (p2' := vadd P2 (mvec (rot h2 t') P3)) in *.
  assert (PE : norm (vsub p2 p2') <= norm P3 * sqrt_eps).
  { replace (vsub p2 p2') with (vsub (mvec (rot h2 t) P3) (mvec (rot h2 t') P3)).
    - pose proof (perp_le h2 P3 U2). nra.
    - unfold p2, p2'. generalize (mvec (rot h2 t) P3), (mvec (rot h2 t') P3). intros; la_ring. }
  assert (D2 : dot h1 p2 = dot h1 w) by (unfold p2; rewrite dot_vadd_r, same_line_dot, D, dot_vadd_r; auto).
  assert (D2' : dot h1 p2' = dot h1 w) by (unfold p2'; rewrite dot_vadd_r, same_line_dot, D, dot_vadd_r; auto).
  assert (NN : dot p2' p2' = dot w w) by (rewrite <- !norm_sq, N; reflexivity).
  split.
  - pose proof (Rmax_l 1 (norm P3)). pose proof (Rmax_r 1 (norm P3)).
    destruct (Rlt_le_dec (norm (vsub p2 w)) sqrt_eps) as [L|L].
    + rewrite subproblem1_short in E1 by auto. inversion E1; subst t2. rewrite rot_0, mvec_I. nra.
    + destruct (rot_exists h1 p2' w U NN D2') as [a Ha].
      eapply Rle_trans; [apply (subproblem1_optimal p2 w h1 t2 a U L E1)|].
      rewrite <- Ha, <- mvec_vsub, SO3_norm by auto using rot_SO3. nra.
  - assert (PP : sqrt_eps <= norm (vsub (dir (perp h1 P3)) (dir (perp h1 P2))) -> t' = t).
    { intros Q. apply X. destruct SL as [->| ->]; rewrite ?perp_neg; auto. }
    intros Q [Z|L].
    + rewrite Z in E1. rewrite subproblem1_short in E1 by (rewrite vsub_self, norm_vzero; auto). inversion E1; subst t2.
      rewrite rot_0, mvec_I. auto.
    + apply (subproblem1_solves p2 w h1 t2); auto. rewrite <- NN. unfold p2'. rewrite (PP Q). reflexivity.
Qed.

(** *** The wrist *)
Lemma sqrt_eps_lt1 : sqrt_eps < 1 / 100.
Proof. pose proof sqrt_eps_small. lra. Qed.
(** A rotation about h5 fitted to B by subproblem1 on h4 *)
Lemma roll_fit B h4 h5 t6 q6 d : is_SO3 B -> unit3 h4 -> unit3 h5 -> dot h4 h5 = 0 ->
  norm (vsub (mvec B h5) h5) <= d -> d <= 1 / 2 ->
  subproblem1 h4 (mvec B h4) h5 = Ok t6 -> ang_eq q6 t6 ->
  norm (vsub (mvec (rot h5 q6) h4) (mvec B h4)) <= Rmax sqrt_eps (3 / 2 * d).
Proof.
  intros SB U4 U5 P N Dd E A. rewrite (rot_ang_eq h5 _ _ A).
  pose proof (norm_nonneg (vsub (mvec B h5) h5)) as N0.
  destruct (subproblem1_cases h4 (mvec B h4) h5 t6 U5 E) as [[L ->]|(L & P4 & PB & _ & F)].
  - rewrite rot_0, mvec_I. pose proof (Rmax_l sqrt_eps (3/2 * d)). lra.
  - assert (E4 : perp h5 h4 = h4). { unfold perp. rewrite P, vscale_0. la_ring. }
    rewrite E4, dir_of_unit in F by auto. rewrite F.
    set (b := mvec B h4) in *. assert (Ub : dot b b = 1). { unfold b. rewrite SO3_dot by auto. exact U4. }
    set (s := dot b h5).
    assert (Hs : s = dot b (vsub h5 (mvec B h5))).
    { unfold s. rewrite dot_vsub_r. unfold b at 3. rewrite SO3_dot, P by auto. ring. }
    assert (As : s * s <= d * d).
    { rewrite Hs. pose proof (cauchy_schwarz b (vsub h5 (mvec B h5))) as C. rewrite Ub, <- (norm_sq (vsub h5 _)), norm_vsub_sym in C.
      assert (norm (vsub (mvec B h5) h5) * norm (vsub (mvec B h5) h5) <= d * d) by nra. lra. }
    set (n := norm (perp h5 b)). assert (Nn : n * n = 1 - s * s).
    { unfold n. rewrite norm_sq, perp_norm, Ub by auto. unfold s. ring. }
    assert (Np : 0 < n) by (apply norm_pos; auto).
    assert (Eb : b = vadd (vscale s h5) (vscale n (dir (perp h5 b)))).
    { unfold n. rewrite dir_scale by auto. unfold s. apply perp_decomp. }
    assert (Dv : dot h5 (dir (perp h5 b)) = 0). { unfold dir. rewrite dot_vscale_r, perp_dot by auto. ring. }
    pose proof (dir_unit _ PB) as Ud. set (v := dir (perp h5 b)) in *.
    assert (Q : dot (vsub v b) (vsub v b) = 2 - 2 * n).
    { rewrite Eb. rewrite !dot_vsub_l, !dot_vsub_r, !dot_vadd_l, !dot_vadd_r, !dot_vscale_l, !dot_vscale_r.
      rewrite (dot_comm v h5), Dv. unfold unit3, norm2 in U5, Ud. rewrite U5, Ud. nra. }
    assert (n <= 1) by nra.
    assert (2 - 2 * n <= 2 * (d * d)) by nra.
    eapply Rle_trans; [|apply Rmax_r].
    pose proof (norm_nonneg (vsub v b)). rewrite <- norm_sq in Q. nra.
Qed.
Lemma basis_expand a b v : unit3 a -> unit3 b -> dot a b = 0 ->
  v = vadd (vadd (vscale (dot v a) a) (vscale (dot v b) b)) (vscale (dot v (cross a b)) (cross a b)) /\
  dot v v = dot v a * dot v a + dot v b * dot v b + dot v (cross a b) * dot v (cross a b).
Proof.
  intros Ua Ub P.
  assert (Uc : dot (cross a b) (cross a b) = 1).
  { pose proof (lagrange a b) as L. unfold norm2 in L. rewrite Ua, Ub, P in L. lra. }
  assert (PB : perp a v = vadd (vscale (dot v b) b) (vscale (dot v (cross a b)) (cross a b))).
  { pose proof (plane_frame a b (perp a v) Ua ltac:(rewrite P; auto) (perp_dot a v Ua) Ub) as F.
    rewrite F at 1. f_equal; [f_equal|f_equal].
    - unfold perp. rewrite dot_vsub_r, dot_vscale_r, (dot_comm b a), P, dot_comm. ring.
    - unfold perp. replace (cross b (vsub v (vscale (dot v a) a))) with (vadd (cross b v) (vscale (dot v a) (cross a b))).
      2:{ clear. generalize (dot v a). intros; la_ring. }
      rewrite dot_vadd_r, dot_vscale_r, dot_cross_l, (dot_cross_cyc v a b). ring. }
  split.
  - rewrite (perp_decomp a v) at 1. rewrite PB. generalize (dot v a), (dot v b), (dot v (cross a b)), (cross a b). intros; la_ring.
  - rewrite (dot_perp a v v), PB by auto.
    rewrite !dot_vadd_l, !dot_vadd_r, !dot_vscale_l, !dot_vscale_r.
    rewrite (dot_comm (cross a b) b), dot_cross_r. unfold unit3, norm2 in Ub. rewrite Ub, Uc. ring.
Qed.
(** Two rotations that nearly agree on h4 and h5 nearly agree everywhere. *)
Lemma rotations_near A B h4 h5 x y e : is_SO3 A -> is_SO3 B -> unit3 h4 -> unit3 h5 -> dot h4 h5 = 0 ->
  norm (vsub (mvec A h4) (mvec B h4)) <= x -> norm (vsub (mvec A h5) (mvec B h5)) <= y ->
  0 <= e -> x * x + y * y + (x + y) * (x + y) <= e * e ->
  forall v, norm (vsub (mvec A v) (mvec B v)) <= e * norm v.
Proof.
  intros SA SB U4 U5 P N4 N5 E0 E v.
  assert (N6 : norm (vsub (mvec A (cross h4 h5)) (mvec B (cross h4 h5))) <= x + y).
  { rewrite !SO3_cross by auto.
    replace (vsub (cross (mvec A h4) (mvec A h5)) (cross (mvec B h4) (mvec B h5))) with
      (vadd (cross (vsub (mvec A h4) (mvec B h4)) (mvec A h5)) (cross (mvec B h4) (vsub (mvec A h5) (mvec B h5)))).
    2:{ generalize (mvec A h4), (mvec A h5), (mvec B h4), (mvec B h5). clear. intros; la_ring. }
    eapply Rle_trans; [apply norm_triangle|]. apply Rplus_le_compat.
    - eapply Rle_trans; [apply cross_norm_le|]. rewrite SO3_norm, (norm_unit h5), Rmult_1_r by auto. auto.
    - eapply Rle_trans; [apply cross_norm_le|]. rewrite SO3_norm, (norm_unit h4), Rmult_1_l by auto. auto. }
  destruct (basis_expand h4 h5 v U4 U5 P) as [Ev Nv].
  set (a := dot v h4) in *. set (b := dot v h5) in *. set (c := dot v (cross h4 h5)) in *. set (h6 := cross h4 h5) in *.
  assert (T : norm (vsub (mvec A v) (mvec B v)) <= Rabs a * x + Rabs b * y + Rabs c * (x + y)).
  { rewrite Ev at 1 2. rewrite !mvec_vadd, !mvec_vscale.
    replace (vsub (vadd (vadd (vscale a (mvec A h4)) (vscale b (mvec A h5))) (vscale c (mvec A h6)))
                  (vadd (vadd (vscale a (mvec B h4)) (vscale b (mvec B h5))) (vscale c (mvec B h6)))) with
      (vadd (vadd (vscale a (vsub (mvec A h4) (mvec B h4))) (vscale b (vsub (mvec A h5) (mvec B h5)))) (vscale c (vsub (mvec A h6) (mvec B h6)))).
    2:{ clearbody a b c h6. generalize (mvec A h4), (mvec A h5), (mvec B h4), (mvec B h5), (mvec A h6), (mvec B h6). clear. intros; la_ring. }
    eapply Rle_trans; [apply norm_triangle|]. apply Rplus_le_compat; [eapply Rle_trans; [apply norm_triangle|]; apply Rplus_le_compat|];
      rewrite norm_vscale; apply Rmult_le_compat_l; auto using Rabs_pos. }
  pose proof (norm_nonneg v). rewrite <- norm_sq in Nv.
  pose proof (norm_nonneg (vsub (mvec A h4) (mvec B h4))). pose proof (norm_nonneg (vsub (mvec A h5) (mvec B h5))).
  assert (Q : (Rabs a * x + Rabs b * y + Rabs c * (x + y)) * (Rabs a * x + Rabs b * y + Rabs c * (x + y)) <= (e * norm v) * (e * norm v)).
  { apply Rle_trans with ((x * x + y * y + (x + y) * (x + y)) * (norm v * norm v)).
    - rewrite Nv. assert (Qa : Rabs a * Rabs a = a * a) by (unfold Rabs; destruct (Rcase_abs a); ring).
      assert (Qb : Rabs b * Rabs b = b * b) by (unfold Rabs; destruct (Rcase_abs b); ring).
      assert (Qc : Rabs c * Rabs c = c * c) by (unfold Rabs; destruct (Rcase_abs c); ring).
      rewrite <- Qa, <- Qb, <- Qc. generalize (Rabs a), (Rabs b), (Rabs c). intros u1 u2 u3. generalize (x + y). intros z0.
      pose proof (Rle_0_sqr (u1 * y - u2 * x)). pose proof (Rle_0_sqr (u1 * z0 - u3 * x)). pose proof (Rle_0_sqr (u2 * z0 - u3 * y)). unfold Rsqr in *. nra.
    - replace (e * norm v * (e * norm v)) with ((e * e) * (norm v * norm v)) by ring. apply Rmult_le_compat_r; auto. nra. }
  assert (0 <= e * norm v) by nra.
  pose proof (norm_nonneg (vsub (mvec A v) (mvec B v))). nra.
Qed.

Lemma ang_eq_0_refl t q : ang_eq q t -> ~ ang_eq q 0 -> t <> 0.
Proof. intros A N ->. auto. Qed.
Lemma arm_exact h1 h2 P2 P3 w l t q3 t2 q2 : unit3 h1 -> same_line h1 h2 ->
  dot h1 w = dot h1 (vadd P2 P3) ->
  subproblem3 P3 P2 h2 (norm w) = Ok l -> In t l -> ang_eq q3 t ->
  subproblem1 (vadd P2 (mvec (rot h2 q3) P3)) w h1 = Ok t2 -> ang_eq q2 t2 ->
  sqrt_eps <= norm (vsub (dir (perp h1 P3)) (dir (perp h1 P2))) -> ~ ang_eq q2 0 ->
  mvec (rot h1 q2) (vadd P2 (mvec (rot h2 q3) P3)) = w.
Proof.
  intros U SL D E3 I A3 E1 A2 Q N.
  destruct (arm_sound h1 h2 P2 P3 w l t q3 t2 q2 U SL D E3 I A3 E1 A2) as [_ X]. apply X; auto.
  right. destruct (Rlt_le_dec (norm (vsub (vadd P2 (mvec (rot h2 q3) P3)) w)) sqrt_eps) as [L|L]; auto.
  rewrite subproblem1_short in E1 by auto. inversion E1; subst t2. tauto.
Qed.

Lemma wrist_sound h3 h4 h5 A l t4 t5 q4 q5 t6 q6 : unit3 h3 -> unit3 h4 -> unit3 h5 -> is_SO3 A -> dot h4 h5 = 0 ->
  eps <= 1 - dot h3 h4 * dot h3 h4 -> eps <= cone_gap h5 (mvec A h5) h3 h4 ->
  subproblem2 h5 (mvec A h5) h3 h4 = Ok l -> In (t4, t5) l -> ang_eq q4 t4 -> ang_eq q5 t5 ->
  subproblem1 h4 (mvec (mmul (mT (mmul (rot h3 q4) (rot h4 q5))) A) h4) h5 = Ok t6 -> ang_eq q6 t6 ->
  (forall v, norm (vsub (mvec (rot h3 q4) (mvec (rot h4 q5) (mvec (rot h5 q6) v))) (mvec A v)) <= 7 * sqrt_eps * norm v) /\
  (~ ang_eq q4 0 -> ~ ang_eq q5 0 -> ~ ang_eq q6 0 -> forall v, mvec (rot h3 q4) (mvec (rot h4 q5) (mvec (rot h5 q6) v)) = mvec A v).
Proof.
  intros U3 U4 U5 SA P HK G E2 I A4 A5 E1 A6. pose proof sqrt_eps_pos as SE. pose proof sqrt_eps_lt1 as SL. pose proof eps_pos as EP.
  assert (NP : dot h5 h5 = dot (mvec A h5) (mvec A h5)) by (rewrite SO3_dot; auto).
  assert (HK' : eps <= Rabs (1 - dot h3 h4 * dot h3 h4)) by (rewrite Rabs_right; lra).
  destruct (subproblem2_two_ok h5 (mvec A h5) h3 h4 U3 U4 HK' G NP) as (a1 & b1 & a2 & b2 & El & S1 & S2 & S3 & S4).
  rewrite El in E2. inversion E2; subst l. clear E2.
  assert (Err2 : norm (vsub (mvec (rot h3 q4) (mvec (rot h4 q5) h5)) (mvec A h5)) < 2 * sqrt_eps /\
                 (~ ang_eq q4 0 -> ~ ang_eq q5 0 -> mvec (rot h3 q4) (mvec (rot h4 q5) h5) = mvec A h5)).
  { rewrite (rot_ang_eq h3 _ _ A4), (rot_ang_eq h4 _ _ A5).
    assert (X : (t4 <> 0 -> t5 <> 0 -> mvec (rot h3 t4) (mvec (rot h4 t5) h5) = mvec A h5) /\
            norm (vsub (mvec (rot h3 t4) (mvec (rot h4 t5) h5)) (mvec A h5)) < 2 * sqrt_eps).
    { destruct I as [I|[I|[]]]; inversion I; subst t4 t5.
      - destruct (subproblem2_two_sound h5 (mvec A h5) h3 h4 _ a1 b1 U3 U4 HK' G NP eq_refl S1 S2) as [X Y]. split; auto.
        intros Z1 Z2. apply Y; auto. intro Z. apply Z1. lra.
      - destruct (subproblem2_two_sound h5 (mvec A h5) h3 h4 (- sp2_g h5 (mvec A h5) h3 h4) a2 b2 U3 U4 HK' G NP ltac:(ring) S3 S4) as [X Y]. split; auto.
        intros Z1 Z2. apply Y; auto. intro Z. apply Z1. lra. }
    destruct X as [X Y]. split; auto. intros Z1 Z2. apply X; eapply ang_eq_0_refl; eauto. }
  destruct Err2 as [Er Ex].
  set (R35 := mmul (rot h3 q4) (rot h4 q5)) in *.
  assert (S35 : is_SO3 R35) by (unfold R35; auto using SO3_mmul, rot_SO3).
  set (B := mmul (mT R35) A) in *. assert (SB : is_SO3 B) by (unfold B; auto using SO3_mmul, SO3_T).
  assert (BA : forall v, mvec R35 (mvec B v) = mvec A v). { intros v. unfold B. rewrite mvec_mmul, SO3_vec_T; auto. }
  assert (CV : forall v, vsub (mvec (rot h3 q4) (mvec (rot h4 q5) (mvec (rot h5 q6) v))) (mvec A v) = mvec R35 (vsub (mvec (rot h5 q6) v) (mvec B v))).
  { intros v. rewrite mvec_vsub, BA. unfold R35. rewrite mvec_mmul. reflexivity. }
  assert (B5 : norm (vsub (mvec B h5) h5) < 2 * sqrt_eps).
  { rewrite <- (SO3_norm R35), mvec_vsub, BA, norm_vsub_sym by auto. unfold R35. rewrite mvec_mmul. auto. }
  split.
  - intros v. rewrite CV, SO3_norm by auto.
    assert (N4 : norm (vsub (mvec (rot h5 q6) h4) (mvec B h4)) <= 3 * sqrt_eps).
    { eapply Rle_trans; [apply (roll_fit B h4 h5 t6 q6 (2 * sqrt_eps)); auto; lra|]. apply Rmax_lub; lra. }
    apply (rotations_near _ B h4 h5 (3 * sqrt_eps) (2 * sqrt_eps)); auto using rot_SO3; try lra; try nra.
    rewrite rot_axis, norm_vsub_sym. lra.
  - intros Z4 Z5 Z6 v. specialize (Ex Z4 Z5).
    assert (B5' : mvec B h5 = h5).
    { unfold B. rewrite mvec_mmul, <- Ex, <- (mvec_mmul (rot h3 q4)). apply SO3_T_vec. auto. }
    assert (B4 : mvec (rot h5 q6) h4 = mvec B h4).
    { rewrite (rot_ang_eq h5 _ _ A6).
      destruct (Rlt_le_dec (norm (vsub h4 (mvec B h4))) sqrt_eps) as [L|L].
      - rewrite subproblem1_short in E1 by auto. inversion E1; subst. tauto.
      - apply (subproblem1_solves h4 (mvec B h4) h5 t6); auto. rewrite SO3_dot; auto.
        rewrite <- B5' at 2. rewrite SO3_dot; auto. }
    apply vsub_0. rewrite CV. replace (vsub (mvec (rot h5 q6) v) (mvec B v)) with vzero; [apply mvec_vzero|].
    symmetry. apply norm_zero. apply Rle_antisym; [|apply norm_nonneg]. rewrite <- (Rmult_0_l (norm v)).
    apply (rotations_near _ B h4 h5 0 0); auto using rot_SO3; try lra.
    + rewrite B4, vsub_self, norm_vzero. lra.
    + rewrite B5', rot_axis, vsub_self, norm_vzero. lra.
Qed.

(** The gap of a roll-pitch-roll wrist *)
Lemma wrist_gap h3 h4 h5 q : dot h3 h4 = 0 -> dot h4 h5 = 0 -> unit3 h5 ->
  cone_gap h5 q h3 h4 = 1 - dot q h3 * dot q h3.
Proof.
  intros P34 P45 U5. unfold cone_gap. rewrite P34, (dot_comm h5 h4), P45. unfold unit3, norm2 in U5. rewrite U5. field.
Qed.
(** At or near the singularity such a wrist makes subproblem2 raise. *)
Lemma wrist_singular h3 h4 h5 q : unit3 h3 -> unit3 h4 -> same_line h3 h5 -> dot h3 h4 = 0 -> unit3 q ->
  1 - dot q h3 * dot q h3 < eps -> subproblem2 h5 q h3 h4 = Err AssertionError.
Proof.
  intros U3 U4 SL P34 Uq G. pose proof (same_line_unit _ _ SL U3) as U5. pose proof eps_pos as EP. pose proof eps_small as ES.
  assert (P45 : dot h4 h5 = 0). { destruct SL as [->| ->]; rewrite ?dot_vneg_r, dot_comm, P34; ring. }
  pose proof (cauchy_schwarz q h3) as C. unfold unit3, norm2 in U3, Uq. rewrite U3, Uq in C.
  assert (NC : norm (cross h3 h4) = 1).
  { apply norm_unit. pose proof (lagrange h3 h4) as L. unfold unit3, norm2 in *. rewrite L, U3, U4, P34. ring. }
  unfold subproblem2. cbv zeta. rewrite P34, (dot_comm h5 h4), P45.
  replace (1 - 0 * 0) with 1 by ring. rewrite (Rabs_right 1), (Rltb_ge 1 eps) by lra.
  replace ((0 * 0 - dot q h3) / (0 * 0 - 1)) with (dot q h3) by (field; lra).
  replace ((- 0 + 0 * dot q h3) / (0 * 0 - 1)) with 0 by (field; lra).
  set (a0 := dot q h3) in *. unfold unit3, norm2 in U5. rewrite U5.
  replace (1 - (a0 * a0 + 0 * 0) - 2 * a0 * 0 * 0) with (1 - a0 * a0) by ring.
  rewrite (Rltb_lt (Rabs _) eps) by (rewrite Rabs_right; lra). rewrite (Rltb_ge 0 0) by lra.
  rewrite NC, (proj2 (Reqb_false 1 0)) by lra. rewrite sqrt_0. unfold Rdiv. rewrite Rmult_0_l.
  rewrite (Rltb_lt (Rabs 0) eps) by (rewrite Rabs_R0; auto).
  set (c := vadd _ _). assert (Ec : c = vscale a0 h3) by (unfold c; generalize (cross h3 h4), a0; clear; intros; la_ring).
  assert (A0 : a0 <> 0) by nra.
  assert (C0 : c <> vzero).
  { intro Z. assert (dot c c = 0) by (rewrite Z; unfold dot, vzero; cbn [vx vy vz]; ring).
    rewrite Ec, dot_vscale_l, dot_vscale_r, U3 in H. nra. }
  rewrite subproblem1_axis_scale by auto. rewrite subproblem1_on_axis; auto using dir_unit.
  - assert (D : dot (vsub h4 h5) (vsub h4 h5) = 2).
    { rewrite dot_vsub_l, !dot_vsub_r, (dot_comm h5 h4), P45, U5. unfold unit3, norm2 in U4. rewrite U4. ring. }
    rewrite <- norm_sq in D. pose proof (norm_nonneg (vsub h4 h5)). pose proof sqrt_eps_lt1. nra.
  - right. unfold on_axis.
    assert (Ed : dir c = h3 \/ dir c = vneg h3).
    { rewrite Ec. unfold dir. rewrite norm_vscale, vscale_vscale, (norm_unit h3) by exact U3. rewrite Rmult_1_r.
      destruct (Rlt_le_dec a0 0).
      - right. rewrite Rabs_left by auto. replace (/ - a0 * a0) with (-1) by (field; auto). clear; la_ring.
      - left. rewrite Rabs_right by lra. rewrite Rinv_l by auto. apply vscale_1. }
    unfold perp. destruct Ed as [->| ->], SL as [->| ->]; rewrite ?dot_vneg_l, ?dot_vneg_r, U3; clear; la_ring.
Qed.
