(** Properties C27-C33: the Paden-Kahan subproblems. *)
From Coq Require Import Reals ZArith List Bool Lra Psatz.
From Verif Require Import LinAlg RealAux Py ModelRot SpecRot FactsReal FactsLinAlg FactsRot FactsRot2 ModelSub SpecSub FactsSub.
Import ListNotations.
Open Scope R_scope.

Ltac vcalc := unfold unit3, perp, dot, cross, vsub, vadd, vscale, ex, ey, ez, vzero in *; cbn [vx vy vz] in *.
Lemma ex_unit : unit3 ex. Proof. vcalc; lra. Qed.
Lemma ey_unit : unit3 ey. Proof. vcalc; lra. Qed.
Lemma ez_unit : unit3 ez. Proof. vcalc; lra. Qed.
Lemma V3_ne a b c a' b' c' : a <> a' \/ b <> b' \/ c <> c' -> V3 a b c <> V3 a' b' c'.
Proof. intros H E. inversion E. intuition. Qed.

(* ================= C27 ================= *)
Theorem C27_subproblem0 : forall k p q, unit3 k -> p <> vzero -> q <> vzero -> dot k p = 0 -> dot k q = 0 ->
  exists t, subproblem0 p q k = Ok (Fin t) /\ - PI < t <= PI /\ rotate k t (dir p) = dir q.
Proof.
  intros k p q U P Q Kp Kq. destruct (subproblem0_correct p q k U P Q Kp Kq) as (t & E & Rg & F).
  exists t. rewrite <- rot_rotate; auto.
Qed.
Example C27_subproblem0_ex : exists t, subproblem0 (V3 2 0 0) (V3 0 (-3) 0) ez = Ok (Fin t) /\ - PI < t <= PI /\
  rotate ez t (dir (V3 2 0 0)) = dir (V3 0 (-3) 0).
Proof. apply C27_subproblem0; try (vcalc; lra); try apply ez_unit; apply V3_ne; lra. Qed.
(** The angle is the only one in (-pi, pi]. *)
Theorem C27_unique : forall k p q t u, unit3 k -> p <> vzero -> dot k p = 0 ->
  subproblem0 p q k = Ok (Fin t) -> q <> vzero -> dot k q = 0 ->
  - PI < u <= PI -> rotate k u (dir p) = dir q -> u = t.
Proof.
  intros k p q t u U P Kp E Q Kq Ru F.
  destruct (subproblem0_correct p q k U P Q Kp Kq) as (t' & E' & Rg & F'). rewrite E in E'. inversion E'; subst t'.
  assert (D : dot k (dir p) = 0) by (unfold dir; rewrite dot_vscale_r, Kp; ring).
  apply ang_eq_small; auto. apply (rot_perp_unique k (dir p)); auto.
  - apply perp_nonzero; auto. rewrite (dot_comm _ k), D, (dir_unit p P). lra.
  - rewrite F', rot_rotate; auto.
Qed.
Theorem C27_rejects : forall k p q, eps <= dot k p \/ eps <= dot k q -> subproblem0 p q k = Err AssertionError.
Proof.
  intros k p q [H|H]; unfold subproblem0.
  - rewrite (Rltb_ge (dot k p)) by auto. reflexivity.
  - rewrite (Rltb_ge (dot k q)), andb_false_r by auto. reflexivity.
Qed.
Example C27_rejects_ex : subproblem0 ex (V3 0 1 1) ez = Err AssertionError.
Proof. apply C27_rejects. right. pose proof eps_small. vcalc. lra. Qed.
(** The assertions lack an absolute value: a vector antiparallel to the axis is accepted and
    an angle returned although no rotation about k takes one direction to the other. *)
Theorem C27_rejects_refuted : exists k p q t, unit3 k /\ dot k p = -1 /\ subproblem0 p q k = Ok (Fin t) /\
  forall u, rotate k u (dir p) <> dir q.
Proof.
  exists ez, (V3 0 0 (-1)), ex.
  assert (E : exists t, subproblem0 (V3 0 0 (-1)) ex ez = Ok (Fin t)).
  { unfold subproblem0. pose proof eps_pos.
    rewrite (Rltb_lt (dot ez (V3 0 0 (-1)))) by (vcalc; lra). rewrite (Rltb_lt (dot ez ex)) by (vcalc; lra).
    cbn [andb assert_ bind].
    rewrite (proj2 (Reqb_norm (V3 0 0 (-1)))) by (apply V3_ne; lra).
    rewrite (proj2 (Reqb_norm ex)) by (apply V3_ne; lra). cbn [orb].
    destruct (Rltb _ _); eauto. }
  destruct E as [t E]. exists t. split; [apply ez_unit|]. split; [vcalc; lra|]. split; auto.
  intros u F. assert (G : dot ez (rotate ez u (dir (V3 0 0 (-1)))) = dot ez (dir ex)) by (rewrite F; auto).
  assert (U1 : unit3 (V3 0 0 (-1))) by (vcalc; lra).
  rewrite !dir_of_unit in G by auto using ex_unit. unfold rotate in G. vcalc. lra.
Qed.
(** A zero vector is accepted and gives NaN. *)
Theorem C27_zero_refuted : exists k p q, unit3 k /\ dot k p = 0 /\ dot k q = 0 /\ subproblem0 p q k = Ok NaN.
Proof.
  exists ez, vzero, ex. split; [apply ez_unit|]. split; [vcalc; lra|]. split; [vcalc; lra|].
  unfold subproblem0. pose proof eps_pos.
  rewrite (Rltb_lt (dot ez vzero)) by (vcalc; lra). rewrite (Rltb_lt (dot ez ex)) by (vcalc; lra).
  cbn [andb assert_ bind]. rewrite (proj2 (Reqb_norm_true vzero) eq_refl). reflexivity.
Qed.
Print Assumptions C27_subproblem0.
Print Assumptions C27_unique.
Print Assumptions C27_rejects.
Print Assumptions C27_rejects_refuted.
Print Assumptions C27_zero_refuted.

(* ================= C28 ================= *)
(** When a solution exists the answer solves the equation to within sqrt(eps), and
    exactly unless p and q already agree to that precision. *)
Theorem C28_subproblem1_solves : forall k p a, k <> vzero -> ~ on_axis (dir k) p ->
  let q := rotate (dir k) a p in
  exists t, subproblem1 p q k = Ok t /\ - PI < t <= PI /\
    norm (vsub (rotate (dir k) t p) q) < sqrt_eps /\
    (sqrt_eps <= norm (vsub p q) -> rotate (dir k) t p = q /\ ang_eq t a).
Proof.
  intros k p a K P q. pose proof (dir_unit k K) as U. rewrite subproblem1_axis_scale by auto.
  set (k' := dir k) in *. clearbody k'. unfold q in *. rewrite <- rot_rotate by auto.
  assert (Q : perp k' (mvec (rot k' a) p) <> vzero).
  { rewrite perp_rot_perp by auto. intros E. apply P. red. rewrite <- (SO3_T_vec (rot k' a) (perp k' p)) by auto using rot_SO3.
    rewrite E, mvec_vzero. auto. }
  assert (D1 : dot p p = dot (mvec (rot k' a) p) (mvec (rot k' a) p)) by (rewrite SO3_dot by auto using rot_SO3; auto).
  assert (D2 : dot k' p = dot k' (mvec (rot k' a) p)) by (rewrite (dot_comm k' (mvec _ _)), rot_dot_axis by auto; apply dot_comm).
  assert (E : exists t, subproblem1 p (mvec (rot k' a) p) k' = Ok t).
  { destruct (Rlt_le_dec (norm (vsub p (mvec (rot k' a) p))) sqrt_eps); [eexists; apply subproblem1_short; auto|].
    destruct (subproblem1_off p (mvec (rot k' a) p) k') as (t & E & _); eauto. }
  destruct E as [t E]. exists t. split; auto. split; [|split].
  - destruct (subproblem1_cases _ _ _ _ U E) as [[_ ->]|(_ & _ & _ & Rg & _)]; auto. pose proof PI_pos; lra.
  - rewrite <- rot_rotate by auto. apply subproblem1_near; auto.
  - intros S. rewrite <- rot_rotate by auto. split; [apply subproblem1_solves; auto|apply (subproblem1_complete p k' a t); auto].
Qed.
Example C28_subproblem1_solves_ex : exists t, subproblem1 (V3 1 2 3) (rotate (dir (V3 0 0 2)) 1 (V3 1 2 3)) (V3 0 0 2) = Ok t /\
  - PI < t <= PI /\ norm (vsub (rotate (dir (V3 0 0 2)) t (V3 1 2 3)) (rotate (dir (V3 0 0 2)) 1 (V3 1 2 3))) < sqrt_eps /\
  (sqrt_eps <= norm (vsub (V3 1 2 3) (rotate (dir (V3 0 0 2)) 1 (V3 1 2 3))) ->
   rotate (dir (V3 0 0 2)) t (V3 1 2 3) = rotate (dir (V3 0 0 2)) 1 (V3 1 2 3) /\ ang_eq t 1).
Proof.
  apply C28_subproblem1_solves. apply V3_ne; lra.
  assert (K : dir (V3 0 0 2) = ez).
  { unfold dir, norm, norm2. vcalc. replace (0 * 0 + 0 * 0 + 2 * 2) with (2 * 2) by ring. rewrite sqrt_square by lra. f_equal; field. }
  rewrite K. unfold on_axis. intros E. vcalc. inversion E. lra.
Qed.
(** In general the answer minimises the distance over all angles (to within sqrt(eps) when p and q
    nearly coincide). *)
Theorem C28_subproblem1_least_squares : forall k p q a, k <> vzero -> ~ on_axis (dir k) p -> ~ on_axis (dir k) q ->
  exists t, subproblem1 p q k = Ok t /\ - PI < t <= PI /\
    norm (vsub (rotate (dir k) t p) q) < norm (vsub (rotate (dir k) a p) q) + sqrt_eps /\
    (sqrt_eps <= norm (vsub p q) -> norm (vsub (rotate (dir k) t p) q) <= norm (vsub (rotate (dir k) a p) q)).
Proof.
  intros k p q a K P Q. pose proof (dir_unit k K) as U. rewrite subproblem1_axis_scale by auto.
  set (k' := dir k) in *. clearbody k'. pose proof sqrt_eps_pos. pose proof PI_pos.
  pose proof (norm_nonneg (vsub (rotate k' a p) q)).
  destruct (Rlt_le_dec (norm (vsub p q)) sqrt_eps) as [S|S].
  - exists 0. rewrite subproblem1_short by auto. rewrite <- (rot_rotate k' 0), rot_0, mvec_I by auto.
    repeat split; lra.
  - destruct (subproblem1_off p q k') as (t & E & Rg & F); auto. exists t. rewrite E. split; auto. split; auto.
    pose proof (subproblem1_optimal p q k' t a U S E) as O. rewrite !rot_rotate in O by auto. split; intros; lra.
Qed.
Example C28_subproblem1_least_squares_ex : ez <> vzero /\ ~ on_axis (dir ez) (V3 1 2 3) /\ ~ on_axis (dir ez) (V3 0 (-1) 5).
Proof.
  rewrite dir_of_unit by apply ez_unit. split; [apply V3_ne; lra|].
  split; intros E; unfold on_axis in E; vcalc; inversion E; lra.
Qed.
(** On the axis there is no angle to find: AssertionError (unless p and q nearly coincide, when it is 0). *)
Theorem C28_subproblem1_on_axis : forall k p q, k <> vzero -> sqrt_eps <= norm (vsub p q) ->
  on_axis (dir k) p \/ on_axis (dir k) q -> subproblem1 p q k = Err AssertionError.
Proof.
  intros k p q K S H. rewrite subproblem1_axis_scale by auto. apply subproblem1_on_axis; auto. apply dir_unit; auto.
Qed.
Example C28_subproblem1_on_axis_ex : subproblem1 (V3 0 0 2) ex ez = Err AssertionError.
Proof.
  apply C28_subproblem1_on_axis. apply V3_ne; lra.
  - pose proof (abs_vz_le_norm (vsub (V3 0 0 2) ex)) as B. vcalc. rewrite Rabs_right in B by lra. pose proof sqrt_eps_small. lra.
  - left. rewrite dir_of_unit by apply ez_unit. unfold on_axis. vcalc. f_equal; ring.
Qed.
Theorem C28_subproblem1_short : forall k p q, norm (vsub p q) < sqrt_eps -> subproblem1 p q k = Ok 0.
Proof. intros. apply subproblem1_short; auto. Qed.
Example C28_subproblem1_short_ex : subproblem1 (V3 1 2 3) (V3 1 2 3) vzero = Ok 0.
Proof. apply C28_subproblem1_short. rewrite vsub_self, norm_vzero. apply sqrt_eps_pos. Qed.
Theorem C28_subproblem1_total : forall k p q, k <> vzero ->
  (exists t, subproblem1 p q k = Ok t) \/ subproblem1 p q k = Err AssertionError.
Proof. intros. apply subproblem1_total; auto. Qed.
Print Assumptions C28_subproblem1_solves.
Print Assumptions C28_subproblem1_least_squares.
Print Assumptions C28_subproblem1_on_axis.
Print Assumptions C28_subproblem1_short.
Print Assumptions C28_subproblem1_total.

(* ================= C29 ================= *)
(** Two crossing circles: two pairs, each within 2 sqrt(eps), and exact when neither angle is 0
    (0 is what subproblem1's shortcut returns). *)
Theorem C29_subproblem2_sound : forall p q k1 k2, unit3 k1 -> unit3 k2 -> norm p = norm q ->
  eps <= 1 - dot k1 k2 * dot k1 k2 -> eps <= cone_gap p q k1 k2 ->
  exists x y, subproblem2 p q k1 k2 = Ok [x; y] /\ forall t1 t2, In (t1, t2) [x; y] ->
    sp2_error p q k1 k2 t1 t2 < 2 * sqrt_eps /\ (t1 <> 0 -> t2 <> 0 -> sp2_error p q k1 k2 t1 t2 = 0).
Proof.
  intros p q k1 k2 U1 U2 N H G. pose proof eps_pos.
  assert (H' : eps <= Rabs (1 - dot k1 k2 * dot k1 k2)) by (rewrite Rabs_right; lra).
  assert (N' : dot p p = dot q q) by (rewrite <- !norm_sq, N; auto).
  destruct (subproblem2_two_ok p q k1 k2 U1 U2 H' G N') as (a1 & b1 & a2 & b2 & E & A1 & B1 & A2 & B2).
  eexists _, _. split; [exact E|]. unfold sp2_error.
  assert (K : forall a b g, g * g = sp2_g p q k1 k2 * sp2_g p q k1 k2 ->
     subproblem1 q (sp2_c p q k1 k2 g) k1 = Ok a -> subproblem1 p (sp2_c p q k1 k2 g) k2 = Ok b ->
     norm (vsub (rotate k1 (- a) (rotate k2 b p)) q) < 2 * sqrt_eps /\
     (- a <> 0 -> b <> 0 -> norm (vsub (rotate k1 (- a) (rotate k2 b p)) q) = 0)).
  { intros a b g Q A B. destruct (subproblem2_two_sound p q k1 k2 g a b U1 U2 H' G N' Q A B) as [S1 S2].
    rewrite !rot_rotate in S1, S2 by auto. split; auto. intros. rewrite S2, vsub_self by (auto; lra). apply norm_vzero. }
  intros t1 t2 [I|[I|[]]]; inversion I; subst.
  - eapply K; [|exact A1|exact B1]; ring.
  - eapply K; [|exact A2|exact B2]; ring.
Qed.
Example C29_subproblem2_sound_ex : let p := V3 0 1 3 in let q := V3 1 3 0 in
  norm p = norm q /\ eps <= 1 - dot ex ey * dot ex ey /\ eps <= cone_gap p q ex ey.
Proof.
  pose proof eps_small. unfold norm, norm2, cone_gap. vcalc. split; [f_equal; ring|]. split; lra.
Qed.
(** At most one pair is returned exactly when the circles touch to within eps, or when they miss
    or the axes are parallel. *)
Theorem C29_branches : forall p q k1 k2, unit3 k1 -> unit3 k2 -> norm p = norm q ->
  (exists x y, subproblem2 p q k1 k2 = Ok [x; y]) <-> (eps <= 1 - dot k1 k2 * dot k1 k2 /\ eps <= cone_gap p q k1 k2).
Proof.
  intros p q k1 k2 U1 U2 N. split.
  - intros (x & y & E). pose proof (sp2_k12 k1 k2 U1 U2) as K. pose proof eps_pos.
    destruct (Rlt_le_dec (1 - dot k1 k2 * dot k1 k2) eps) as [L|L].
    { rewrite subproblem2_parallel in E by (rewrite Rabs_right; lra). discriminate. }
    split; auto. destruct (Rlt_le_dec (cone_gap p q k1 k2) eps) as [M|M]; auto. exfalso.
    unfold subproblem2 in E. cbv zeta in E. rewrite (Rltb_ge (Rabs (1 - _))) in E by (rewrite Rabs_right; lra).
    rewrite sp2_bb in E by (auto; lra).
    rcase (Rltb (Rabs (cone_gap p q k1 k2)) eps).
    + rewrite (Rltb_ge 0 0) in E by lra. destruct (Reqb _ 0); [discriminate|].
      rewrite sqrt_0 in E. unfold Rdiv in E. rewrite Rmult_0_l in E. rewrite Rabs_R0, (Rltb_lt 0 eps) in E by lra.
      destruct (subproblem1 k2 p _) as [t|e]; [|discriminate]. cbn [bind] in E.
      destruct (subproblem1 k1 q _) as [t'|e]; discriminate.
    + destruct (Rlt_le_dec (cone_gap p q k1 k2) 0) as [Z|Z].
      * rewrite Rltb_lt in E by auto. discriminate.
      * rewrite Rabs_right in * by lra. lra.
  - intros [H G]. destruct (C29_subproblem2_sound p q k1 k2 U1 U2 N H G) as (x & y & E & _). eauto.
Qed.
(** The single-solution branch passes its arguments to subproblem1 in the wrong order.
    The answer can be wrong although the equation has an exact solution (a quarter turn about each axis)... *)
Theorem C29_touching_refuted : exists p q k1 k2 t1 t2, unit3 k1 /\ unit3 k2 /\ norm p = norm q /\ dot k1 k2 = 0 /\
  subproblem2 p q k1 k2 = Ok [(t1, t2)] /\ 1 / 10 < sp2_error p q k1 k2 t1 t2 /\
  sp2_error p q k1 k2 (PI / 2) (PI / 2) = 0.
Proof.
  set (p := V3 0 1 1). set (q := V3 1 0 1). set (c := V3 1 1 0).
  assert (C0 : c <> vzero) by (apply V3_ne; lra).
  assert (Nc : norm c * norm c = 2) by (rewrite norm_sq; unfold c; vcalc; lra).
  pose proof (norm_pos c C0) as Np. set (s := / norm c).
  assert (Ss : s * s = 1 / 2).
  { unfold s. apply (Rmult_eq_reg_r (norm c * norm c)); [|lra]. rewrite Nc.
    replace (/ norm c * / norm c * 2) with (/ norm c * / norm c * (norm c * norm c)) by (rewrite Nc; ring). field. lra. }
  assert (D : dir c = V3 s s 0) by (unfold dir; fold s; unfold c, vscale; simpl; f_equal; ring).
  assert (Pp : forall v, perp (V3 s s 0) v = V3 ((vx v - vy v) / 2) ((vy v - vx v) / 2) (vz v)).
  { intros [x y z]. unfold perp, vsub, vscale, dot. simpl. f_equal; [| |ring].
    - replace (x - (x * s + y * s + z * 0) * s) with (x - (x + y) * (s * s)) by ring. rewrite Ss. lra.
    - replace (y - (x * s + y * s + z * 0) * s) with (y - (x + y) * (s * s)) by ring. rewrite Ss. lra. }
  pose proof (dir_unit c C0) as Uc. rewrite D in Uc.
  pose proof sqrt_eps_small as se. pose proof eps_pos as ep.
  assert (O1 : exists t, subproblem1 ex q c = Ok t).
  { rewrite subproblem1_axis_scale, D by auto.
    destruct (subproblem1_off ex q (V3 s s 0)) as (t & E & _); eauto.
    - pose proof (abs_vz_le_norm (vsub ex q)) as B. unfold q in B |- *. vcalc. rewrite Rabs_left in B by lra. lra.
    - rewrite Pp. apply V3_ne. simpl. lra.
    - rewrite Pp. apply V3_ne. simpl. lra. }
  assert (O2 : exists t, subproblem1 ey p c = Ok t /\ cos t * cos t = 1 / 3).
  { rewrite subproblem1_axis_scale, D by auto.
    assert (E1 : perp (V3 s s 0) ey <> vzero) by (rewrite Pp; apply V3_ne; simpl; lra).
    assert (E2 : perp (V3 s s 0) p <> vzero) by (rewrite Pp; apply V3_ne; simpl; lra).
    destruct (subproblem1_off ey p (V3 s s 0)) as (t & E & _ & F); auto.
    - pose proof (abs_vz_le_norm (vsub ey p)) as B. unfold p in B |- *. vcalc. rewrite Rabs_left in B by lra. lra.
    - exists t. split; auto.
      assert (Ke : dot (V3 s s 0) (dir (perp (V3 s s 0) ey)) = 0) by (unfold dir; rewrite dot_vscale_r, perp_dot by auto; ring).
      destruct (plane_rot_angle (V3 s s 0) (dir (perp (V3 s s 0) ey)) t) as [Ct _]; auto using dir_unit.
      rewrite F in Ct. rewrite <- Ct. unfold dir. rewrite dot_vscale_l, dot_vscale_r.
      pose proof (norm_sq (perp (V3 s s 0) ey)) as N1. pose proof (norm_sq (perp (V3 s s 0) p)) as N2.
      pose proof (norm_pos _ E1) as P1. pose proof (norm_pos _ E2) as P2.
      set (n1 := norm (perp (V3 s s 0) ey)) in *. set (n2 := norm (perp (V3 s s 0) p)) in *.
      rewrite Pp in N1. rewrite Pp in N2. rewrite !Pp. unfold p in *. vcalc.
      assert (Q1 : n1 * n1 = 1 / 2) by lra. assert (Q2 : n2 * n2 = 3 / 2) by lra.
      set (X := _ + _ + _).
      replace (/ n1 * (/ n2 * X) * (/ n1 * (/ n2 * X))) with (X * X / ((n1 * n1) * (n2 * n2))) by (field; lra).
      rewrite Q1, Q2. unfold X. field. }
  destruct O1 as [t1 O1]. destruct O2 as (t2 & O2 & Ct).
  exists p, q, ex, ey, (- t1), t2. split; [apply ex_unit|]. split; [apply ey_unit|].
  split; [unfold p, q, norm, norm2; vcalc; f_equal; ring|]. split; [vcalc; lra|].
  split; [|split].
  - unfold subproblem2. cbv zeta.
    replace (dot ex ey) with 0 by (vcalc; ring). replace (dot p ey) with 1 by (unfold p; vcalc; ring).
    replace (dot q ex) with 1 by (unfold q; vcalc; ring). replace (dot p p) with 2 by (unfold p; vcalc; ring).
    replace ((0 * 1 - 1) / (0 * 0 - 1)) with 1 by field. replace ((- (1) + 0 * 1) / (0 * 0 - 1)) with 1 by field.
    rewrite (Rltb_ge (Rabs _)) by (rewrite Rabs_right; lra || (pose proof eps_small; lra)).
    replace (2 - (1 * 1 + 1 * 1) - 2 * 1 * 1 * 0) with 0 by ring.
    rewrite Rabs_R0, (Rltb_lt 0 eps) by auto. rewrite (Rltb_ge 0 0) by lra.
    rewrite (proj2 (Reqb_norm (cross ex ey))) by (unfold cross, ex, ey; simpl; apply V3_ne; lra).
    rewrite sqrt_0. unfold Rdiv. rewrite Rmult_0_l, Rabs_R0, (Rltb_lt 0 eps) by auto.
    replace (vadd (vadd (vscale 1 ex) (vscale 1 ey)) (vscale 0 (cross ex ey))) with c by (unfold c; vcalc; f_equal; ring).
    rewrite O1, O2. reflexivity.
  - unfold sp2_error. set (w := vsub _ _).
    assert (W : vx w = sin t2 - 1).
    { unfold w, rotate, p, q, ex, ey, vsub, vadd, vscale, cross, dot. simpl. ring. }
    pose proof (abs_vx_le_norm w) as B. rewrite W in B. pose proof (sin_cos_1 t2) as SC.
    assert (sin t2 * sin t2 = 2 / 3) by lra. assert (sin t2 < 85 / 100) by nra.
    rewrite Rabs_left in B by lra. lra.
  - unfold sp2_error. replace (vsub _ _) with vzero; [apply norm_vzero|].
    replace (rotate ey (PI / 2) p) with (V3 1 1 0) by (unfold rotate, p; rewrite cos_PI2, sin_PI2; vcalc; f_equal; ring).
    unfold rotate, q. rewrite cos_PI2, sin_PI2. vcalc. f_equal; ring.
Qed.
(** ... and the branch raises when q is the touching point itself. *)
Theorem C29_touching_raises_refuted : exists p q k1 k2, unit3 k1 /\ unit3 k2 /\ norm p = norm q /\ dot k1 k2 = 0 /\
  sp2_error p q k1 k2 0 (PI / 2) = 0 /\ subproblem2 p q k1 k2 = Err AssertionError.
Proof.
  exists (V3 0 1 1), (V3 1 1 0), ex, ey. split; [apply ex_unit|]. split; [apply ey_unit|].
  split; [unfold norm, norm2; vcalc; f_equal; ring|]. split; [vcalc; lra|]. split.
  - unfold sp2_error. replace (vsub _ _) with vzero; [apply norm_vzero|].
    replace (rotate ey (PI / 2) (V3 0 1 1)) with (V3 1 1 0) by (unfold rotate; rewrite cos_PI2, sin_PI2; vcalc; f_equal; ring).
    unfold rotate. rewrite cos_0, sin_0. vcalc. f_equal; ring.
  - pose proof eps_pos as ep. pose proof sqrt_eps_small. unfold subproblem2. cbv zeta.
    replace (dot ex ey) with 0 by (vcalc; ring). replace (dot (V3 0 1 1) ey) with 1 by (vcalc; ring).
    replace (dot (V3 1 1 0) ex) with 1 by (vcalc; ring). replace (dot (V3 0 1 1) (V3 0 1 1)) with 2 by (vcalc; ring).
    replace ((0 * 1 - 1) / (0 * 0 - 1)) with 1 by field. replace ((- (1) + 0 * 1) / (0 * 0 - 1)) with 1 by field.
    rewrite (Rltb_ge (Rabs _)) by (rewrite Rabs_right; lra || (pose proof eps_small; lra)).
    replace (2 - (1 * 1 + 1 * 1) - 2 * 1 * 1 * 0) with 0 by ring.
    rewrite Rabs_R0, (Rltb_lt 0 eps) by auto. rewrite (Rltb_ge 0 0) by lra.
    rewrite (proj2 (Reqb_norm (cross ex ey))) by (unfold cross, ex, ey; simpl; apply V3_ne; lra).
    rewrite sqrt_0. unfold Rdiv. rewrite Rmult_0_l, Rabs_R0, (Rltb_lt 0 eps) by auto.
    replace (vadd (vadd (vscale 1 ex) (vscale 1 ey)) (vscale 0 (cross ex ey))) with (V3 1 1 0) by (vcalc; f_equal; ring).
    assert (C0 : V3 1 1 0 <> vzero) by (apply V3_ne; lra).
    rewrite (C28_subproblem1_on_axis (V3 1 1 0) ex (V3 1 1 0)); auto.
    + destruct (subproblem1_total ey (V3 0 1 1) (V3 1 1 0) C0) as [[t E]|E]; rewrite E; reflexivity.
    + pose proof (abs_vy_le_norm (vsub ex (V3 1 1 0))) as B. vcalc. rewrite Rabs_left in B by lra. lra.
    + right. unfold on_axis. rewrite <- (dir_scale (V3 1 1 0)) at 2 by auto.
      pose proof (dir_unit _ C0) as U. set (u := dir (V3 1 1 0)) in *. unfold perp. rewrite dot_vscale_l, U, Rmult_1_r. apply vsub_self.
Qed.
Print Assumptions C29_subproblem2_sound.
Print Assumptions C29_branches.
Print Assumptions C29_touching_refuted.
Print Assumptions C29_touching_raises_refuted.

(* ================= C30 ================= *)
(** Every solution of a crossing pair is found: each angle up to whole turns, or as 0
    when it moves its vector by less than sqrt(eps). *)
Theorem C30_subproblem2_complete : forall p k1 k2 a b, unit3 k1 -> unit3 k2 ->
  let q := rotate k1 a (rotate k2 b p) in
  eps <= 1 - dot k1 k2 * dot k1 k2 -> eps <= cone_gap p q k1 k2 ->
  exists l s1 s2, subproblem2 p q k1 k2 = Ok l /\ In (s1, s2) l /\
    (ang_eq s1 a \/ (s1 = 0 /\ norm (vsub (rotate k2 b p) q) < sqrt_eps)) /\
    (ang_eq s2 b \/ (s2 = 0 /\ norm (vsub (rotate k2 b p) p) < sqrt_eps)).
Proof.
  intros p k1 k2 a b U1 U2 q H G. pose proof eps_pos.
  assert (H' : eps <= Rabs (1 - dot k1 k2 * dot k1 k2)) by (rewrite Rabs_right; lra).
  pose proof (subproblem2_complete p q k1 k2 a b U1 U2 H') as C. rewrite !rot_rotate in C by auto. apply C; auto.
Qed.
Example C30_subproblem2_complete_ex : let p := V3 0 1 3 in let q := rotate ex (PI/2) (rotate ey (PI/6) p) in
  eps <= 1 - dot ex ey * dot ex ey /\ eps <= cone_gap p q ex ey.
Proof.
  cbv zeta. pose proof eps_small. split; [vcalc; lra|].
  replace (rotate ey (PI / 6) (V3 0 1 3)) with (V3 (3 / 2) 1 (3 * (sqrt 3 / 2)))
    by (unfold rotate; rewrite cos_PI6, sin_PI6; vcalc; f_equal; field).
  replace (rotate ex (PI / 2) (V3 (3 / 2) 1 (3 * (sqrt 3 / 2)))) with (V3 (3 / 2) (- (3 * (sqrt 3 / 2))) 1)
    by (unfold rotate; rewrite cos_PI2, sin_PI2; vcalc; f_equal; field).
  unfold cone_gap. vcalc. lra.
Qed.
(** The discriminant of a solvable problem is never negative; it is zero exactly when the
    crossing point lies in the plane of the axes. *)
Theorem C30_gap_of_solution : forall p k1 k2 a b, unit3 k1 -> unit3 k2 -> dot k1 k2 * dot k1 k2 <> 1 ->
  let v := rotate k2 b p in
  cone_gap p (rotate k1 a v) k1 k2 * (1 - dot k1 k2 * dot k1 k2) = dot v (cross k1 k2) * dot v (cross k1 k2) /\
  0 <= cone_gap p (rotate k1 a v) k1 k2.
Proof.
  intros p k1 k2 a b U1 U2 H v. unfold v. rewrite <- !rot_rotate by auto. split.
  - rewrite <- (sp2_n2 k1 k2 U1 U2). apply (subproblem2_point p _ k1 k2 a b); auto.
  - apply (subproblem2_no_solution p _ k1 k2 a b); auto.
Qed.
Example C30_gap_of_solution_ex : dot ex ey * dot ex ey <> 1. Proof. vcalc. lra. Qed.
(** An empty result for axes that are not parallel means that there is no solution. *)
Theorem C30_subproblem2_empty : forall p q k1 k2 a b, unit3 k1 -> unit3 k2 -> eps <= 1 - dot k1 k2 * dot k1 k2 ->
  subproblem2 p q k1 k2 = Ok [] -> rotate k1 a (rotate k2 b p) <> q.
Proof.
  intros p q k1 k2 a b U1 U2 H E F. pose proof eps_pos.
  rewrite <- !rot_rotate in F by auto.
  pose proof (subproblem2_no_solution p q k1 k2 a b U1 U2 ltac:(lra) F) as G.
  unfold subproblem2 in E. cbv zeta in E. rewrite (Rltb_ge (Rabs (1 - _))) in E by (rewrite Rabs_right; lra).
  rewrite sp2_bb in E by (auto; lra).
  set (bb := if Rltb (Rabs (cone_gap p q k1 k2)) eps then _ else _) in E.
  assert (B : 0 <= bb) by (unfold bb; destruct (Rltb _ _); lra). rewrite (Rltb_ge bb 0) in E by auto.
  destruct (Reqb _ 0); [discriminate|].
  destruct (Rltb (Rabs (sqrt bb / _)) eps).
  - destruct (subproblem1 k2 p _); [|discriminate]. cbn [bind] in E. destruct (subproblem1 k1 q _); discriminate.
  - destruct (subproblem1 q _ k1); [|discriminate]. cbn [bind] in E. destruct (subproblem1 q _ k1); [|discriminate]. cbn [bind] in E.
    destruct (subproblem1 p _ k2); [|discriminate]. cbn [bind] in E. destruct (subproblem1 p _ k2); discriminate.
Qed.
(** The circles of (0,5,1) about y and of (0,0,1) about x miss. *)
Example C30_subproblem2_empty_ex : eps <= 1 - dot ex ey * dot ex ey /\ subproblem2 (V3 0 1 0) (V3 1 0 0) ex ey = Ok [].
Proof.
  pose proof eps_small. pose proof eps_pos. split; [vcalc; lra|].
  apply subproblem2_miss; auto using ex_unit, ey_unit.
  - vcalc. rewrite Rabs_right; lra.
  - unfold cone_gap. vcalc. lra.
Qed.
(** Parallel axes always give an empty result, although every rotation about the common axis is a solution. *)
Theorem C30_parallel_refuted : exists p q k1 k2 a b, unit3 k1 /\ unit3 k2 /\ rotate k1 a (rotate k2 b p) = q /\
  subproblem2 p q k1 k2 = Ok [].
Proof.
  exists ex, (rotate ez 1 (rotate ez 1 ex)), ez, ez, 1, 1. split; [apply ez_unit|]. split; [apply ez_unit|].
  split; auto. apply subproblem2_parallel. vcalc. pose proof eps_pos. replace (1 - _) with 0 by ring. rewrite Rabs_R0. auto.
Qed.
(** At touching circles the (only) solution (a quarter turn about each axis) is not among the answers. *)
Theorem C30_touching_refuted : exists p q k1 k2 a b l, unit3 k1 /\ unit3 k2 /\ dot k1 k2 = 0 /\
  rotate k1 a (rotate k2 b p) = q /\ subproblem2 p q k1 k2 = Ok l /\ ~ In (a, b) l /\
  forall t1 t2, In (t1, t2) l -> ~ (ang_eq t1 a /\ ang_eq t2 b).
Proof.
  destruct C29_touching_refuted as (p & q & k1 & k2 & t1 & t2 & U1 & U2 & N & D & E & B & S).
  exists p, q, k1, k2, (PI / 2), (PI / 2), [(t1, t2)]. split; auto. split; auto. split; auto.
  assert (S' : rotate k1 (PI / 2) (rotate k2 (PI / 2) p) = q) by (apply vsub_0, norm_zero; auto).
  split; auto. split; auto.
  assert (X : forall u1 u2, In (u1, u2) [(t1, t2)] -> ~ (ang_eq u1 (PI / 2) /\ ang_eq u2 (PI / 2))).
  { intros u1 u2 [I|[]] [A1 A2]. inversion I; subst u1 u2. unfold sp2_error in B.
    rewrite <- !rot_rotate in B by auto. rewrite (rot_ang_eq k1 _ _ A1), (rot_ang_eq k2 _ _ A2), !rot_rotate, S' in B by auto.
    rewrite vsub_self, norm_vzero in B. lra. }
  split; auto. intros I. apply (X _ _ I). split; apply ang_eq_refl.
Qed.
Print Assumptions C30_subproblem2_complete.
Print Assumptions C30_gap_of_solution.
Print Assumptions C30_subproblem2_empty.
Print Assumptions C30_parallel_refuted.
Print Assumptions C30_touching_refuted.

(* ================= C31 ================= *)
Theorem C31_subproblem3_sound : forall p q k d l t, unit3 k -> 0 <= d -> subproblem3 p q k d = Ok l -> In t l ->
  Rabs (norm (vadd q (rotate k t p)) - d) < norm (perp k p) * sqrt_eps /\
  (sqrt_eps <= norm (vsub (dir (perp k p)) (dir (perp k q))) -> norm (vadd q (rotate k t p)) = d).
Proof.
  intros p q k d l t U D E I. rewrite <- rot_rotate by auto. split.
  - eapply subproblem3_sound; eauto.
  - intros. eapply subproblem3_sound_exact; eauto.
Qed.
(** Never more than two answers. *)
Theorem C31_subproblem3_count : forall p q k d l, unit3 k -> subproblem3 p q k d = Ok l -> (length l <= 2)%nat.
Proof.
  intros p q k d l U E.
  destruct (vec3_dec (perp k p)) as [P|P].
  { destruct (sp3_on_axis k p q d U (or_introl P)) as [[F _]|[F _]]; rewrite F in E; inversion E; subst; simpl; auto. }
  destruct (vec3_dec (perp k q)) as [Q|Q].
  { destruct (sp3_on_axis k p q d U (or_intror Q)) as [[F _]|[F _]]; rewrite F in E; inversion E; subst; simpl; auto. }
  destruct (subproblem3_cases k p q d U P Q) as [[F _]|(s & t0 & Rg & F & C & B & [Es|[_ Es]])];
    rewrite ?F in E; rewrite ?Es in E; inversion E; subst; simpl; auto.
Qed.
(** Two different answers, met exactly: p = x, q = y, d = 1. *)
Example C31_subproblem3_sound_ex : exists l t, subproblem3 ex ey ez 1 = Ok l /\ In t l /\ norm (vadd ey (rotate ez t ex)) = 1.
Proof.
  assert (P : forall v, perp ez v = V3 (vx v) (vy v) 0) by (intros [x y z]; vcalc; f_equal; ring).
  assert (Px : perp ez ex = ex) by (rewrite P; reflexivity). assert (Py : perp ez ey = ey) by (rewrite P; reflexivity).
  assert (Nx : perp ez ex <> vzero) by (rewrite Px; apply unit_nonzero, ex_unit).
  assert (Ny : perp ez ey <> vzero) by (rewrite Py; apply unit_nonzero, ey_unit).
  assert (S : norm (vadd ey (rotate ez (PI + PI / 6) ex)) = 1).
  { apply norm_of_sq; [lra|]. unfold rotate. rewrite Rplus_comm, neg_cos, neg_sin, cos_PI6, sin_PI6. vcalc.
    pose proof (sqrt_sqrt 3 ltac:(lra)). field_simplify. replace (sqrt 3 ^ 2) with (sqrt 3 * sqrt 3) by ring. lra. }
  rewrite <- rot_rotate in S by apply ez_unit.
  destruct (subproblem3_complete ez ex ey 1 _ ez_unit S Nx Ny) as (l & t & E & I & _).
  exists l, t. split; auto. split; auto. apply (C31_subproblem3_sound ex ey ez 1 l t ez_unit ltac:(lra) E I).
  rewrite Px, Py, !dir_of_unit by auto using ex_unit, ey_unit.
  pose proof (abs_vx_le_norm (vsub ex ey)) as B. vcalc. rewrite Rabs_right in B by lra. pose proof sqrt_eps_small. lra.
Qed.
Print Assumptions C31_subproblem3_sound.
Print Assumptions C31_subproblem3_count.

(* ================= C32 ================= *)
Theorem C32_subproblem3_complete : forall p q k a, unit3 k -> ~ on_axis k p -> ~ on_axis k q ->
  let d := norm (vadd q (rotate k a p)) in
  exists l s, subproblem3 p q k d = Ok l /\ In s l /\
    norm (vsub (rotate k s p) (rotate k a p)) < norm (perp k p) * sqrt_eps /\
    (sqrt_eps <= norm (vsub (dir (perp k p)) (dir (perp k q))) -> ang_eq s a).
Proof.
  intros p q k a U P Q d. unfold d. rewrite <- rot_rotate by auto.
  destruct (subproblem3_complete k p q _ a U eq_refl P Q) as (l & s & E & I & N & A).
  exists l, s. rewrite <- rot_rotate; auto.
Qed.
Example C32_subproblem3_complete_ex : ~ on_axis ez (V3 1 2 3) /\ ~ on_axis ez (V3 (-1) 0 2) /\
  sqrt_eps <= norm (vsub (dir (perp ez (V3 1 0 3))) (dir (perp ez (V3 (-1) 0 2)))).
Proof.
  split; [|split]; try (intros E; unfold on_axis in E; vcalc; inversion E; lra).
  replace (perp ez (V3 1 0 3)) with ex by (vcalc; f_equal; ring).
  replace (perp ez (V3 (-1) 0 2)) with (V3 (-1) 0 0) by (vcalc; f_equal; ring).
  rewrite !dir_of_unit by (vcalc; lra).
  pose proof (abs_vx_le_norm (vsub ex (V3 (-1) 0 0))) as B. vcalc. rewrite Rabs_right in B by lra. pose proof sqrt_eps_small. lra.
Qed.
Theorem C32_subproblem3_empty : forall p q k d a, unit3 k -> subproblem3 p q k d = Ok [] ->
  norm (vadd q (rotate k a p)) <> d.
Proof. intros. rewrite <- rot_rotate by auto. apply subproblem3_empty; auto. Qed.
Example C32_subproblem3_empty_ex : subproblem3 ex ey ez 5 = Ok [].
Proof.
  unfold subproblem3. replace (dot ex ez) with 0 by (vcalc; ring). replace (dot ey ez) with 0 by (vcalc; ring).
  replace (dot ez (vadd ex ey)) with 0 by (vcalc; ring). rewrite !vscale_0.
  replace (vsub ex vzero) with ex by (vcalc; f_equal; ring). replace (vsub ey vzero) with ey by (vcalc; f_equal; ring).
  cbv zeta. rewrite ex_unit, ey_unit, !norm_unit by auto using ex_unit, ey_unit.
  rewrite Rltb_ge by lra. rewrite (proj2 (Reqb_false _ _)) by lra. rewrite Rltb_lt; auto. rewrite Rabs_right; lra.
Qed.
(** The only failure is AssertionError, and it occurs exactly when p or q is on the axis and
    every angle is a solution. *)
Theorem C32_subproblem3_raises : forall p q k d, unit3 k -> 0 <= d ->
  ((exists e, subproblem3 p q k d = Err e) <->
   ((on_axis k p \/ on_axis k q) /\ forall a, norm (vadd q (rotate k a p)) = d)) /\
  (forall e, subproblem3 p q k d = Err e -> e = AssertionError).
Proof.
  intros p q k d U D.
  assert (X : (on_axis k p \/ on_axis k q) \/ (perp k p <> vzero /\ perp k q <> vzero)).
  { unfold on_axis. destruct (vec3_dec (perp k p)); auto. destruct (vec3_dec (perp k q)); auto. }
  destruct X as [X|[P Q]].
  - destruct (sp3_on_axis k p q d U X) as [[F A]|[F A]]; rewrite F.
    + split; [split; intros|intros e [= <-]; auto].
      * split; auto. intros a. rewrite <- rot_rotate by auto. apply norm_of_sq; auto.
      * eauto.
    + split; [split|]; try (intros; discriminate).
      * intros [e E]; discriminate.
      * intros [_ B]. exfalso. apply (A 0). apply norm_to_sq. rewrite rot_rotate by auto. auto.
  - assert (Y : exists l, subproblem3 p q k d = Ok l).
    { destruct (subproblem3_cases k p q d U P Q) as [[F _]|(s & t0 & _ & _ & _ & _ & [Es|[_ Es]])]; eauto. }
    destruct Y as [l Y]. rewrite Y. split; [split|]; try (intros; discriminate).
    + intros [e E]; discriminate.
    + intros [[B|B] _]; contradiction.
Qed.
Theorem C32_on_axis_refuted : exists p q k d a, unit3 k /\ norm (vadd q (rotate k a p)) = d /\
  subproblem3 p q k d = Err AssertionError.
Proof.
  assert (A : forall a, norm (vadd ex (rotate ez a vzero)) = 1).
  { intros a. replace (vadd ex (rotate ez a vzero)) with ex by (unfold rotate; vcalc; f_equal; ring). apply norm_unit, ex_unit. }
  exists vzero, ex, ez, 1, 0. split; [apply ez_unit|]. split; auto.
  destruct (C32_subproblem3_raises vzero ex ez 1 ez_unit ltac:(lra)) as [I O].
  destruct (proj2 I) as [e E].
  - split; auto. left. unfold on_axis. vcalc. f_equal; ring.
  - rewrite E. f_equal. apply O; auto.
Qed.
Print Assumptions C32_subproblem3_complete.
Print Assumptions C32_subproblem3_empty.
Print Assumptions C32_subproblem3_raises.
Print Assumptions C32_on_axis_refuted.

(* ================= C33 ================= *)
Theorem C33_subproblem4_sound : forall p q k d t, unit3 k -> In (Fin t) (subproblem4 p q k d) -> dot p (rotate k t q) = d.
Proof.
  intros p q k d t U I. rewrite <- rot_rotate by auto.
  destruct (subproblem4_cases p q k d) as [[E _]|[[E _]|[[E _]|(s1 & s2 & E & _ & _ & S1 & S2 & _ & _)]]]; rewrite E in I; simpl in I.
  - destruct I.
  - destruct I as [I|[I|[]]]; discriminate.
  - destruct I as [I|[I|[]]]; discriminate.
  - destruct I as [I|[I|[]]]; inversion I; subst; auto.
Qed.
(** Complete unless the value does not depend on the angle. *)
Theorem C33_subproblem4_complete : forall p q k a, unit3 k -> (exists u, dot p (rotate k u q) <> dot p (rotate k a q)) ->
  exists s1 s2, subproblem4 p q k (dot p (rotate k a q)) = [Fin s1; Fin s2] /\ (ang_eq s1 a \/ ang_eq s2 a).
Proof.
  intros p q k a U [u Hv]. rewrite <- !rot_rotate in * by auto. set (d := dot p (mvec (rot k a) q)) in *.
  destruct (subproblem4_cases p q k d) as [[E A]|[[E A]|[[E A]|(s1 & s2 & E & _ & _ & S1 & S2 & C & u' & Hu)]]].
  - specialize (A a). fold d in A. lra.
  - specialize (A a). fold d in A. lra.
  - exfalso. apply Hv. apply A.
  - exists s1, s2. split; auto.
Qed.
Example C33_subproblem4_complete_ex : exists u, dot (V3 1 2 3) (rotate ez u (V3 0 1 1)) <> dot (V3 1 2 3) (rotate ez (PI/2) (V3 0 1 1)).
Proof. exists 0. unfold rotate. rewrite cos_0, sin_0, cos_PI2, sin_PI2. vcalc. lra. Qed.
(** Above the reachable range: empty. *)
Theorem C33_subproblem4_too_large : forall p q k d, unit3 k -> (forall t, dot p (rotate k t q) < d) -> subproblem4 p q k d = [].
Proof.
  intros p q k d U H.
  destruct (subproblem4_cases p q k d) as [[E A]|[[E A]|[[E A]|(s1 & s2 & E & _ & _ & S1 & S2 & C & u' & Hu)]]]; auto; exfalso.
  - specialize (H 0). specialize (A 0). rewrite rot_rotate in A by auto. lra.
  - specialize (H 0). specialize (A 0). rewrite rot_rotate in A by auto. lra.
  - specialize (H s1). rewrite rot_rotate in S1 by auto. lra.
Qed.
Example C33_subproblem4_too_large_ex : forall t, dot ex (rotate ez t ex) < 2.
Proof. intros t. unfold rotate. vcalc. pose proof (Rabs_cos_le t). lra. Qed.
Theorem C33_subproblem4_empty : forall p q k d t, unit3 k -> subproblem4 p q k d = [] -> dot p (rotate k t q) < d.
Proof.
  intros p q k d t U E0. rewrite <- rot_rotate by auto.
  destruct (subproblem4_cases p q k d) as [[E A]|[[E A]|[[E A]|(s1 & s2 & E & _ & _ & S1 & S2 & C & u' & Hu)]]]; auto; rewrite E in E0; discriminate.
Qed.
(** Below the range, or when every angle solves the equation, the answer is two NaNs. *)
Theorem C33_subproblem4_nan : forall p q k d, unit3 k ->
  (In NaN (subproblem4 p q k d) <-> ((forall t, d < dot p (rotate k t q)) \/ (forall t, dot p (rotate k t q) = d))) /\
  (In NaN (subproblem4 p q k d) -> subproblem4 p q k d = [NaN; NaN]).
Proof.
  intros p q k d U.
  assert (W : forall t, mvec (rot k t) q = rotate k t q) by (intros; apply rot_rotate; auto).
  destruct (subproblem4_cases p q k d) as [[E A]|[[E A]|[[E A]|(s1 & s2 & E & _ & _ & S1 & S2 & C & u' & Hu)]]]; rewrite E.
  - split; [split|]; try (intros []; fail).
    intros [B|B]; specialize (A 0); specialize (B 0); rewrite W in A; lra.
  - split; auto. split; [intros _; left; intros t; rewrite <- W; auto|intros _; left; auto].
  - split; auto. split; [intros _; right; intros t; rewrite <- W; auto|intros _; left; auto].
  - split; [split|]; try (intros [|[|[]]]; discriminate).
    intros [B|B]; exfalso.
    + specialize (B s1). rewrite W in S1. lra.
    + apply Hu. rewrite W. auto.
Qed.
Theorem C33_too_small_refuted : exists p q k d, unit3 k /\ (forall t, dot p (rotate k t q) <> d) /\ subproblem4 p q k d = [NaN; NaN].
Proof.
  assert (V : forall t, -2 < dot ex (rotate ez t ex)).
  { intros t. unfold rotate. vcalc. pose proof (Rabs_cos_le t). lra. }
  exists ex, ex, ez, (-2). split; [apply ez_unit|]. split.
  - intros t. specialize (V t). lra.
  - apply (C33_subproblem4_nan ex ex ez (-2) ez_unit). apply (C33_subproblem4_nan ex ex ez (-2) ez_unit). left; auto.
Qed.
Theorem C33_constant_refuted : exists p q k d, unit3 k /\ (forall t, dot p (rotate k t q) = d) /\ subproblem4 p q k d = [NaN; NaN].
Proof.
  assert (V : forall t, dot ez (rotate ez t ex) = 0) by (intros t; unfold rotate; vcalc; ring).
  exists ez, ex, ez, 0. split; [apply ez_unit|]. split; auto.
  apply (C33_subproblem4_nan ez ex ez 0 ez_unit). apply (C33_subproblem4_nan ez ex ez 0 ez_unit). right; auto.
Qed.
Print Assumptions C33_subproblem4_sound.
Print Assumptions C33_subproblem4_complete.
Print Assumptions C33_subproblem4_too_large.
Print Assumptions C33_subproblem4_empty.
Print Assumptions C33_subproblem4_nan.
Print Assumptions C33_too_small_refuted.
Print Assumptions C33_constant_refuted.
