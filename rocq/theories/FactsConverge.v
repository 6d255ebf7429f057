(** One step of iterative_invkin near the goal. *)
From Coq Require Import Reals ZArith List Bool Lra Lia Psatz.
From Verif Require Import LinAlg RealAux Py FactsReal FactsLinAlg ModelRot SpecRot FactsRot FactsRot2 ModelTransform ModelRobot ModelKin SpecKin FactsKin FactsJac FactsNorm PropKin
  ModelInvkin SpecInvkin FactsInvkin SpecEquiv FactsIter PropIter SpecMove PropMove SpecConverge FactsTaylor.
Import ListNotations.
Open Scope R_scope.

(* ---- the pose after a small move ---- *)
Definition base_R (r : robot) : mat3 := match rbase r with Some B => tR B | None => I3 end.
Lemma base_R_SO3 r : wf_aux r -> is_SO3 (base_R r).
Proof. intros WA. pose proof (wf_base r WA) as B. unfold base_R. destruct (rbase r) as [T|]; [exact B | apply SO3_I]. Qed.
Lemma base_diff r x y : vsub (act_opt (rbase r) x) (act_opt (rbase r) y) = mvec (base_R r) (vsub x y).
Proof. unfold base_R. destruct (rbase r) as [T|]; cbn [act_opt]; [unfold act|]; la_ring. Qed.
Lemma tool_R r : wf_aux r -> exists G, is_SO3 G /\ forall v, vsub (act_opt (rflange r) (act_tool r v)) (act_opt (rflange r) (act_tool r vzero)) = mvec G v.
Proof.
  intros WA. pose proof (wf_flange r WA) as F. pose proof (wf_tool r WA) as WT.
  set (A := match rRtool r, rptool r with Some A, Some _ => A | _, _ => I3 end).
  assert (SA : is_SO3 A). { unfold A. destruct (rRtool r) as [B|]; [|apply SO3_I]. destruct (rptool r); [apply WT; reflexivity | apply SO3_I]. }
  assert (EA : forall v, vsub (act_tool r v) (act_tool r vzero) = mvec A v).
  { intros v. unfold A, act_tool. destruct (rRtool r) as [B|]; [destruct (rptool r)|]; la_ring. }
  set (Fm := match rflange r with Some T => tR T | None => I3 end).
  assert (SF : is_SO3 Fm). { unfold Fm. destruct (rflange r); [exact F | apply SO3_I]. }
  exists (mmul Fm A). split; [apply SO3_mmul; assumption|]. intros v. rewrite mvec_mmul, <- EA. unfold Fm.
  destruct (rflange r) as [T|]; cbn [act_opt]; [unfold act|]; generalize (act_tool r v) (act_tool r vzero); la_ring.
Qed.
Lemma fwdkin_taylor r q d T T' J M : wf_robot r -> wf_aux r -> Forall plain_type (rtype r) -> length q = length (rtype r) -> length d = length (rtype r) ->
  fwdkin r q true = Ok T -> fwdkin r (moved q d) true = Ok T' -> robotjacobian r q true = Ok J ->
  1 <= M -> arm_length (rtype r) (tl (rP r)) q (norm (tool_point r)) <= M ->
  norm (vsub (vsub (tp T') (tp T)) (lo3 (jac_apply J d))) <= M * (l1 d * l1 d / 2) /\
  forall v, norm (vsub (vsub (mvec (tR T') v) (mvec (tR T) v)) (cross (hi3 (jac_apply J d)) (mvec (tR T) v))) <= l1 d * l1 d / 2 * norm v.
Proof.
  intros W WA PT LQ LD ET ET' EJ M1 MA. destruct (fwdkin_point r q true T W ET) as [_ A]. destruct (fwdkin_point r _ true T' W ET') as [_ A'].
  rewrite (jacobian_value r q W WA PT ltac:(lia)) in EJ. injection EJ as <-. fold (base_R r). rewrite jac_apply_rotcol.
  assert (LP : length (tl (rP r)) = length (rtype r)) by (pose proof (wf_P r W); destruct (rP r); cbn in *; lia).
  destruct (chain_taylor (rtype r) (rH r) (tl (rP r)) q (tool_point r) d M PT (wf_unit r W) (wf_H r W) LP LQ LD M1 MA) as [B1 B2]. cbv zeta in B1, B2.
  pose proof (base_R_SO3 r WA) as SB. set (B := base_R r) in *. set (w := jac_apply (jloc _ _ _ _ _) d) in *. cbn [rotcol hi3 lo3].
  assert (TP : forall X, tp X = act X vzero) by (intros X; unfold act; generalize (tp X) (tR X); la_ring). split.
  - rewrite !TP, A, A'. unfold robot_point. rewrite base_diff. fold B. fold (tool_point r).
    set (c' := chain _ _ _ (moved q d) _) in *. set (c := chain _ _ _ q _) in *.
    replace (vsub (mvec B (vsub (vadd (hd vzero (rP r)) c') (vadd (hd vzero (rP r)) c))) (mvec B (lo3 w))) with (mvec B (vsub (vsub c' c) (lo3 w))) by (generalize (lo3 w) (hd vzero (rP r)); la_ring).
    rewrite norm_SO3 by exact SB. exact B1.
  - intros v. destruct (tool_R r WA) as (G & SG & EG).
    assert (TV : forall X th, (forall x, act X x = robot_point r th x) -> mvec (tR X) v = mvec B (mvec (cR (rtype r) (rH r) (tl (rP r)) th) (mvec G v))).
    { intros X th AX. replace (mvec (tR X) v) with (vsub (act X v) (act X vzero)) by (unfold act; la_ring). rewrite !AX. unfold robot_point. rewrite base_diff. fold B. f_equal.
      rewrite (chain_affine _ _ _ th (act_opt _ (act_tool r v))), (chain_affine _ _ _ th (act_opt _ (act_tool r vzero))) by apply (wf_unit r W). rewrite <- EG.
      generalize (act_opt (rflange r) (act_tool r v)) (act_opt (rflange r) (act_tool r vzero)) (chain (rtype r) (rH r) (tl (rP r)) th vzero) (hd vzero (rP r)) (cR (rtype r) (rH r) (tl (rP r)) th). la_ring. }
    rewrite (TV T q A), (TV T' _ A'). specialize (B2 (mvec G v)). rewrite (norm_SO3 G v SG) in B2. rewrite <- (SO3_cross B) by exact SB. rewrite <- !mvec_vsub. rewrite norm_SO3 by exact SB. exact B2.
Qed.

(* ---- rotation errors ---- *)
Lemma perp_exists k : unit3 k -> exists v, dot k v = 0 /\ dot v v = 1.
Proof.
  destruct k as [x y z]. unfold unit3, dot; cbn [vx vy vz]. intros U. destruct (Req_dec (x * x + y * y) 0) as [Z | N].
  - exists (V3 1 0 0). cbn [vx vy vz]. split; [|ring]. nra.
  - assert (P : 0 < x * x + y * y) by nra. pose proof (sqrt_lt_R0 _ P) as S0. pose proof (sqrt_sqrt _ (Rlt_le _ _ P)) as SS. set (s := sqrt _) in *.
    exists (V3 (- y / s) (x / s) 0). cbn [vx vy vz]. split; [field; lra|]. replace (- y / s * (- y / s) + x / s * (x / s) + 0 * 0) with ((x * x + y * y) / (s * s)) by (field; lra). rewrite SS. field. exact N.
Qed.
Lemma sin_half_of k t b : unit3 k -> 0 <= t <= PI -> (forall v, norm (vsub (rotate k t v) v) <= b * norm v) -> 2 * sin (t / 2) <= b.
Proof.
  intros U B H. destruct (perp_exists k U) as (v & KV & VV). pose proof PI_pos. assert (S0 : 0 <= sin (t / 2)) by (apply sin_ge_0; lra).
  specialize (H v). assert (NV : norm v = 1) by (apply norm_unit; exact VV). rewrite NV in H.
  eapply Rle_trans; [|rewrite Rmult_1_r in H; exact H]. unfold norm, norm2. rewrite <- (sqrt_square (2 * sin (t / 2))) by lra. apply sqrt_le_1_alt.
  rewrite <- rot_rotate by auto. rewrite mvec_rot. set (s := sin t). set (c := cos t).
  replace (dot (vsub (vadd (vadd v (vscale s (cross k v))) (vscale (1 - c) (cross k (cross k v)))) v)
                  (vsub (vadd (vadd v (vscale s (cross k v))) (vscale (1 - c) (cross k (cross k v)))) v))
            with ((s * s + (1 - c) * (1 - c) * dot k k) * (dot k k * dot v v - dot k v * dot k v)) by la_ring.
  unfold unit3 in U. rewrite U, VV, KV. pose proof (sin2_cos2 t) as SC. unfold Rsqr in SC. fold s in SC. fold c in SC.
  assert (C : c = 1 - 2 * sin (t / 2) * sin (t / 2)) by (unfold c; rewrite <- cos_2a_sin; f_equal; field). right.
  replace ((s * s + (1 - c) * (1 - c) * 1) * (1 * 1 - 0 * 0)) with (s * s + c * c + 1 - 2 * c) by ring. rewrite SC, C. ring.
Qed.
Lemma cross_lin k v w a : cross k (vsub v (vscale a w)) = vsub (cross k v) (vscale a (cross k w)).
Proof. la_ring. Qed.
Lemma cross3 k w : cross k (cross k (cross k w)) = vscale (- dot k k) (cross k w).
Proof. la_ring. Qed.
Lemma dot_cross_sq k w : dot (cross k w) (cross k w) = dot k k * dot w w - dot k w * dot k w.
Proof. la_ring. Qed.
Lemma dot_cross_0 k w : dot w (cross k w) = 0 /\ dot k (cross k w) = 0.
Proof. split; la_ring. Qed.
Lemma comb_eq v X Y a s c : vsub (vadd (vadd (vsub v (vscale a X)) (vscale s (vsub X (vscale a Y)))) (vscale (1 - c) (vadd Y (vscale a X)))) v
  = vadd (vscale (s - a * c) X) (vscale (1 - c - s * a) Y).
Proof. la_ring. Qed.
Lemma comb_sq X Y a b : dot (vadd (vscale a X) (vscale b Y)) (vadd (vscale a X) (vscale b Y)) = a * a * dot X X + b * b * dot Y Y + 2 * (a * b) * dot X Y.
Proof. la_ring. Qed.
Lemma sub_neg X Y a : vsub Y (vscale a (vscale (- (1)) X)) = vadd Y (vscale a X).
Proof. la_ring. Qed.
(** turning by t and back by a first-order turn *)
Lemma correct_turn k t a v : unit3 k ->
  norm (vsub (rotate k t (vsub v (vscale a (cross k v)))) v) <= sqrt (2 - 2 * cos t + a * a - 2 * a * sin t) * norm v.
Proof.
  intros U. rewrite <- rot_rotate by auto. rewrite mvec_rot. set (s := sin t). set (c := cos t).
  pose proof (sin2_cos2 t) as SC. unfold Rsqr in SC. fold s in SC. fold c in SC. unfold unit3 in U.
  assert (G : 0 <= 2 - 2 * c + a * a - 2 * a * s). { assert ((s - a) * (s - a) + (1 - c) * (1 - c) = 2 - 2 * c + a * a - 2 * a * s) as <- by (replace ((s - a) * (s - a) + (1 - c) * (1 - c)) with (s * s + c * c + 1 + a * a - 2 * a * s - 2 * c) by ring; rewrite SC; ring).
    pose proof (Rle_0_sqr (s - a)) as Q1. pose proof (Rle_0_sqr (1 - c)) as Q2. unfold Rsqr in *. lra. }
  apply norm_le_sq; [apply Rmult_le_pos; [apply sqrt_pos | apply norm_nonneg]|].
  replace (sqrt (2 - 2 * c + a * a - 2 * a * s) * norm v * (sqrt (2 - 2 * c + a * a - 2 * a * s) * norm v)) with (sqrt (2 - 2 * c + a * a - 2 * a * s) * sqrt (2 - 2 * c + a * a - 2 * a * s) * (norm v * norm v)) by ring.
  rewrite sqrt_sqrt, norm_sq by exact G. set (X := cross k v).
  set (Y := cross k X).
  assert (E : vsub (vadd (vadd (vsub v (vscale a X)) (vscale s (cross k (vsub v (vscale a X))))) (vscale (1 - c) (cross k (cross k (vsub v (vscale a X)))))) v
     = vadd (vscale (s - a * c) X) (vscale (1 - c - s * a) Y)).
  { rewrite (cross_lin k v X a). fold X. fold Y. rewrite (cross_lin k X Y a). fold Y. pose proof (cross3 k v) as K3. fold X in K3. fold Y in K3. rewrite K3, U, sub_neg. apply comb_eq. }
  rewrite E. assert (XX : dot X X = dot v v - dot k v * dot k v) by (unfold X; rewrite dot_cross_sq, U; ring).
  assert (YY : dot Y Y = dot X X). { unfold Y. rewrite dot_cross_sq, U. unfold X at 3 4. rewrite (proj2 (dot_cross_0 k v)). ring. }
  assert (XY : dot X Y = 0) by apply dot_cross_0. rewrite comb_sq.
  rewrite YY, XY. replace ((s - a * c) * (s - a * c) * dot X X + (1 - c - s * a) * (1 - c - s * a) * dot X X + 2 * ((s - a * c) * (1 - c - s * a)) * 0)
    with (((s - a * c) * (s - a * c) + (1 - c - s * a) * (1 - c - s * a)) * dot X X) by ring.
  assert (EQ : (s - a * c) * (s - a * c) + (1 - c - s * a) * (1 - c - s * a) = 2 - 2 * c + a * a - 2 * a * s).
  { replace ((s - a * c) * (s - a * c) + (1 - c - s * a) * (1 - c - s * a)) with ((s * s + c * c) * (1 + a * a) + 1 - 2 * c - 2 * a * s) by ring. rewrite SC. ring. }
  rewrite EQ. apply Rmult_le_compat_l; [exact G|]. rewrite XX. nra.
Qed.
Lemma contraction t : 0 <= t <= PI -> sin (t / 2) <= 3 / 10 ->
  let a := 3 / 10 * sin (t / 2) in sqrt (2 - 2 * cos t + a * a - 2 * a * sin t) <= 172 / 100 * sin (t / 2).
Proof.
  intros B H a. pose proof PI_pos. assert (S0 : 0 <= sin (t / 2)) by (apply sin_ge_0; lra). assert (C0 : 0 <= cos (t / 2)) by (apply cos_ge_0; lra).
  assert (C : cos t = 1 - 2 * sin (t / 2) * sin (t / 2)) by (rewrite <- cos_2a_sin; f_equal; field).
  assert (S : sin t = 2 * sin (t / 2) * cos (t / 2)) by (rewrite <- sin_2a; f_equal; field).
  pose proof (sin2_cos2 (t / 2)) as SC. unfold Rsqr in SC. unfold a. rewrite C, S. set (x := sin (t / 2)) in *. set (c := cos (t / 2)) in *.
  assert (C1 : 95 / 100 <= c) by nra.
  rewrite <- (sqrt_square (172 / 100 * x)) by lra. apply sqrt_le_1_alt.
  assert (X2 : 0 <= x * x) by nra. assert (x * x * (95 / 100) <= x * x * c) by (apply Rmult_le_compat_l; assumption). nra.
Qed.

(* ---- joint values ---- *)
Lemma moved_opp q : forall d, moved q (map Ropp d) = map (fun p => fst p - snd p) (combine q d).
Proof. induction q as [|x q IH]; intros [|y d]; try reflexivity. unfold moved in *. cbn [map combine fst snd]. rewrite IH. reflexivity. Qed.
Lemma l1_opp d : l1 (map Ropp d) = l1 d.
Proof. induction d as [|x d IH]; [reflexivity|]. cbn [map]. rewrite !l1_cons, IH, Rabs_Ropp. reflexivity. Qed.
Lemma moved_length q d : length d = length q -> length (moved q d) = length q.
Proof. intros L. unfold moved. rewrite map_length, combine_length. lia. Qed.
Lemma dist1_moved q : forall d, length d = length q -> dist1 (moved q d) q = l1 d.
Proof.
  induction q as [|x q IH]; intros [|y d] L; try discriminate; [reflexivity|]. injection L as L. unfold dist1, moved in *. cbn [map combine fst snd]. rewrite !l1_cons, IH by exact L.
  f_equal. f_equal. ring.
Qed.
Lemma dist1_triangle a : forall b c, length a = length b -> length b = length c -> dist1 a c <= dist1 a b + dist1 b c.
Proof.
  induction a as [|x a IH]; intros [|y b] [|z c] L1 L2; try discriminate; [unfold dist1; cbn; lra|]. injection L1 as L1. injection L2 as L2. unfold dist1 in *. cbn [map combine fst snd]. rewrite !l1_cons.
  pose proof (IH b c L1 L2). pose proof (Rabs_triang (x - y) (y - z)) as T. replace (x - y + (y - z)) with (x - z) in T by ring. lra.
Qed.
Lemma dist1_self a : dist1 a a = 0.
Proof. induction a as [|x a IH]; [reflexivity|]. unfold dist1 in *. cbn [map combine fst snd]. rewrite l1_cons, IH. replace (x - x) with 0 by ring. rewrite Rabs_R0. ring. Qed.
Lemma jac_apply_opp J : forall d, jac_apply J (map Ropp d) = V6 (vneg (hi3 (jac_apply J d))) (vneg (lo3 (jac_apply J d))).
Proof.
  assert (Z : V6 vzero vzero = V6 (vneg vzero) (vneg vzero)) by (f_equal; la_ring).
  induction J as [|c J IH]; intros [|x d]; try exact Z. cbn [map jac_apply]. rewrite IH. cbn [hi3 lo3]. generalize (hi3 (jac_apply J d)) (lo3 (jac_apply J d)) (hi3 c) (lo3 c). intros. f_equal; la_ring.
Qed.
Lemma jac_length r q J : wf_robot r -> wf_aux r -> Forall plain_type (rtype r) -> length q = length (rtype r) -> robotjacobian r q true = Ok J -> length J = length (rtype r).
Proof.
  intros W WA PT LQ E. rewrite (jacobian_value r q W WA PT ltac:(lia)) in E. injection E as <-. rewrite map_length.
  assert (LP : length (tl (rP r)) = length (rtype r)) by (pose proof (wf_P r W); destruct (rP r); cbn in *; lia). pose proof (wf_H r W) as LH.
  revert LQ LP LH. generalize (rtype r) (rH r) (tl (rP r)) (tool_point r). clear. intros ty H P x. revert H P q.
  induction ty as [|j ty IH]; intros H P q L1 L2 L3; [reflexivity|]. destruct H; [discriminate|]. destruct P; [discriminate|]. destruct q; [discriminate|]. cbn [length] in *.
  cbn [jloc]. destruct j; cbn [length]; rewrite ?map_length; rewrite IH; lia.
Qed.
Lemma turned_matrix pose T k t : rigid pose -> turned pose T k t -> mmul (mT (tR pose)) (tR T) = rot k t.
Proof.
  intros RP (U & B & E). apply mvec_ext. intros v. rewrite mvec_mmul, E, <- rot_rotate by exact U. rewrite <- mvec_mmul, SO3_T_mul by exact RP. rewrite mvec_I. reflexivity.
Qed.

(* ---- the step ---- *)
Section Step.
Context (pinv : list vec6 -> vec6 -> out (list R)) (r : robot) (pose : transform) (tol c M : R).
Hypothesis W : wf_robot r.
Hypothesis WA : wf_aux r.
Hypothesis PT : Forall plain_type (rtype r).
Hypothesis RP : rigid pose.
Hypothesis TOL : 2 / 1000000 <= tol.
Hypothesis C0 : 0 <= c.
Hypothesis M1 : 1 <= M.
Definition gain : mat3 := mscale (3 / 10) I3.
Definition perr (T : transform) : R := norm (vsub (tp T) (tp pose)).

(** the rotation error as measured *)
Lemma measured_s k t : unit3 k -> 0 <= t <= PI -> sin (t / 2) <= 3 / 10 ->
  exists a th, R2rot (rot k t) = Fin (a, th) /\
    (vscale (sin (th / 2)) (axis_vec a) = vscale (sin (t / 2)) k \/ vscale (sin (th / 2)) (axis_vec a) = vzero /\ sin (t / 2) < 1 / 1000000).
Proof.
  intros U B S. pose proof PI_pos. destruct (Rlt_dec (sin t) (1 / 1000000)) as [L | L].
  - assert (C : cos t = 1 - 2 * sin (t / 2) * sin (t / 2)) by (rewrite <- cos_2a_sin; f_equal; field).
    assert (S0 : 0 <= sin (t / 2)) by (apply sin_ge_0; lra). assert (CP : 0 < cos t) by (rewrite C; nra).
    exists (PyList (V3 0 0 1)), 0. split; [apply R2rot_near_I; auto|]. right. split.
    + replace (0 / 2) with 0 by field. rewrite sin_0. cbn [axis_vec]. unfold vscale, vzero; cbn. f_equal; ring.
    + pose proof (sin_half_near t B L CP) as Q. unfold eps6 in Q. lra.
  - exists (NdArray k), t. split; [apply R2rot_generic; auto; lra|]. left. reflexivity.
Qed.
Lemma all_below_norm v : all_below tol v = true -> norm v <= 2 * tol.
Proof.
  intros H. apply all_below_small in H. destruct H as (A & B & C). apply Rabs_def2 in A. apply Rabs_def2 in B. apply Rabs_def2 in C.
  apply norm_le_sq; [lra|]. unfold dot. nra.
Qed.
Lemma norm_all_below v : norm v < tol -> all_below tol v = true.
Proof.
  intros H. apply all_below_small. assert (G : forall x, x * x <= dot v v -> Rabs x < tol).
  { intros x Hx. eapply Rle_lt_trans; [|exact H]. unfold norm, norm2. rewrite <- sqrt_Rsqr_abs. apply sqrt_le_1_alt. exact Hx. }
  unfold small, dot in *. repeat split; apply G; nra.
Qed.
Lemma gain_vec v : mvec gain v = vscale (3 / 10) v.
Proof. unfold gain. la_ring. Qed.

Lemma one_step q T k t m : length q = length (rtype r) -> fwdkin r q true = Ok T -> turned pose T k t ->
  sin (t / 2) <= m -> perr T <= m -> m <= 3 / 10 -> M * (c * c) * m <= 1 / 5 ->
  arm_length (rtype r) (tl (rP r)) q (norm (tool_point r)) <= M ->
  (forall J, robotjacobian r q true = Ok J -> right_inverse pinv c (to_tool_frame (tR T) J)) ->
  (iterative_step pinv r pose gain gain tol q = Ok (true, q) /\ perr T <= 2 * tol /\ sin (t / 2) <= 2 * tol) \/
  (tol <= m /\ exists q' T' k' t', iterative_step pinv r pose gain gain tol q = Ok (false, q') /\ length q' = length (rtype r) /\ dist1 q' q <= 6 / 10 * c * m /\
    fwdkin r q' true = Ok T' /\ turned pose T' k' t' /\ sin (t' / 2) <= 9 / 10 * m /\ perr T' <= 9 / 10 * m).
Proof.
  intros LQ ET TU SM PM M3 MC MA RI. pose proof PI_pos as PP. pose proof (turned_matrix pose T k t RP TU) as ER. destruct TU as (U & B & TV).
  assert (RT : is_SO3 (tR T)) by (apply (C21_fwdkin_rigid r q true T); auto).
  assert (S0 : 0 <= sin (t / 2)) by (apply sin_ge_0; lra).
  destruct (measured_s k t U B ltac:(lra)) as (a & th & E1 & ES). set (s := vscale (sin (th / 2)) (axis_vec a)) in *.
  pose proof (jacobian_value r q W WA PT ltac:(lia)) as EJ. set (J := map _ (jloc _ _ _ _ _)) in EJ.
  set (EP := mvec (mT (tR T)) (vsub (tp T) (tp pose))).
  assert (NEP : norm EP = perr T) by (unfold EP, perr; apply norm_SO3; apply SO3_T; exact RT).
  destruct (RI J EJ (V6 (mvec gain s) (mvec gain EP))) as (d & ED & LD & JD & BD). cbn [hi3 lo3] in BD.
  assert (LD' : length d = length (rtype r)). { rewrite LD. unfold to_tool_frame. rewrite map_length. apply (jac_length r q J W WA PT LQ EJ). }
  assert (NS : norm s <= sin (t / 2)).
  { destruct ES as [-> | [-> _]]; [rewrite norm_vscale, (norm_unit k U), Rabs_right by lra; lra | rewrite norm_vzero; lra]. }
  assert (STEP : iterative_step pinv r pose gain gain tol q =
    if (all_below tol s && all_below tol EP)%bool then Ok (true, q) else Ok (false, map (fun p => fst p - snd p) (combine q d))).
  { unfold iterative_step. rewrite ET. cbn [bind]. rewrite EJ. cbn [bind]. rewrite ER, E1. cbv zeta. fold s. fold EP. rewrite ED. cbn [bind].
    destruct (all_below tol s && all_below tol EP)%bool; [reflexivity|]. rewrite LD', Nat.eqb_refl. reflexivity. }
  rewrite STEP. destruct (all_below tol s && all_below tol EP)%bool eqn:AB.
  { left. apply andb_true_iff in AB. destruct AB as [A1 A2]. split; [reflexivity|]. split; [rewrite <- NEP; apply all_below_norm; exact A2|].
    destruct ES as [ES | [_ ES]]; [|lra]. apply all_below_norm in A1. rewrite ES, norm_vscale, (norm_unit k U), Rabs_right in A1 by lra. lra. }
  right. assert (TM : tol <= m).
  { destruct (Rle_dec tol m) as [Q | Q]; [exact Q|]. exfalso. rewrite !norm_all_below in AB by lra. discriminate. }
  split; [exact TM|]. rewrite <- moved_opp. set (e := map Ropp d). assert (LE : length e = length (rtype r)) by (unfold e; rewrite map_length; exact LD').
  assert (LM : length (moved q e) = length (rtype r)) by (rewrite moved_length; lia).
  pose proof (fwdkin_ignore r (moved q e) W ltac:(lia)) as ET'. set (T' := apply_aux r (bare_pose r (moved q e))) in *.
  assert (RT' : is_SO3 (tR T')) by (apply (C21_fwdkin_rigid r (moved q e) true T'); auto).
  destruct (turned_of pose T' RP RT') as (k' & t' & U' & B' & _ & TU').
  exists (moved q e), T', k', t'. split; [reflexivity|]. split; [exact LM|].
  assert (L1 : l1 e <= 6 / 10 * c * m).
  { unfold e. rewrite l1_opp. eapply Rle_trans; [exact BD|]. rewrite !gain_vec, !norm_vscale, (Rabs_right (3 / 10)) by lra.
    replace (6 / 10 * c * m) with (c * (3 / 10 * m + 3 / 10 * m)) by field. apply Rmult_le_compat_l; [exact C0 | lra]. }
  split. { rewrite dist1_moved by lia. exact L1. }
  split; [exact ET'|]. split; [exact TU'|].
  destruct (fwdkin_taylor r q e T T' J M W WA PT LQ LE ET ET' EJ M1 MA) as [TP TR].
  assert (JB : jac_apply J d = V6 (mvec (tR T) (mvec gain s)) (mvec (tR T) (mvec gain EP))).
  { unfold to_tool_frame in JD. change (map (fun c0 : vec6 => V6 (mvec (mT (tR T)) (hi3 c0)) (mvec (mT (tR T)) (lo3 c0))) J) with (map (rotcol (mT (tR T))) J) in JD.
    rewrite jac_apply_rotcol in JD. destruct (jac_apply J d) as [x y]. unfold rotcol in JD. cbn [hi3 lo3] in JD. pose proof (f_equal hi3 JD) as J1. pose proof (f_equal lo3 JD) as J2. cbn [hi3 lo3] in J1, J2. rewrite <- J1, <- J2, <- !mvec_mmul, SO3_mul_T, !mvec_I by exact RT. reflexivity. }
  assert (JE : jac_apply J e = V6 (vneg (mvec (tR T) (mvec gain s))) (vneg (mvec (tR T) (mvec gain EP)))) by (unfold e; rewrite jac_apply_opp, JB; reflexivity).
  rewrite JE in TP, TR. cbn [hi3 lo3] in TP, TR. rewrite gain_vec in TP, TR.
  assert (m0 : 0 <= m) by lra.
  assert (L2 : l1 e * l1 e <= 36 / 100 * (c * c) * m * m).
  { pose proof (l1_nonneg e). replace (36 / 100 * (c * c) * m * m) with (6 / 10 * c * m * (6 / 10 * c * m)) by field. apply Rmult_le_compat; assumption. }
  assert (CC : 0 <= c * c) by nra.
  assert (ML : M * (l1 e * l1 e / 2) <= 36 / 1000 * m).
  { apply Rle_trans with (M * (36 / 100 * (c * c) * m * m / 2)); [apply Rmult_le_compat_l; lra|].
    replace (M * (36 / 100 * (c * c) * m * m / 2)) with (18 / 100 * m * (M * (c * c) * m)) by field.
    replace (36 / 1000 * m) with (18 / 100 * m * (1 / 5)) by field. apply Rmult_le_compat_l; lra. }
  assert (LL : l1 e * l1 e / 2 <= 36 / 1000 * m).
  { eapply Rle_trans; [|exact ML]. assert (0 <= l1 e * l1 e / 2) by (pose proof (l1_nonneg e); nra). nra. }
  split.
  - (* orientation *)
    assert (G : forall b, (forall v, norm (vsub (rotate k t (vsub v (vscale (3 / 10) (cross s v)))) v) <= b * norm v) -> 2 * sin (t' / 2) <= b + 36 / 1000 * m).
    { intros b HB. apply (sin_half_of k' t'); [exact U' | exact B'|]. intros v. destruct TU' as (_ & _ & TV').
      rewrite <- (norm_SO3 (tR pose) (vsub (rotate k' t' v) v) RP), mvec_vsub, <- TV'.
      replace (vsub (mvec (tR T') v) (mvec (tR pose) v)) with
        (vadd (vsub (vsub (mvec (tR T') v) (mvec (tR T) v)) (cross (vneg (mvec (tR T) (vscale (3 / 10) s))) (mvec (tR T) v)))
              (mvec (tR pose) (vsub (rotate k t (vsub v (vscale (3 / 10) (cross s v)))) v))).
      2:{ rewrite mvec_vsub, <- TV. rewrite mvec_vsub, !mvec_vscale, (SO3_cross (tR T)) by exact RT. generalize (mvec (tR T') v) (mvec (tR T) v) (mvec (tR T) s) (mvec (tR pose) v). la_ring. }
      eapply Rle_trans; [apply norm_triangle|]. rewrite (norm_SO3 (tR pose)) by exact RP. pose proof (TR v) as TRv. pose proof (HB v) as HBv. pose proof (norm_nonneg v) as NV.
      assert (l1 e * l1 e / 2 * norm v <= 36 / 1000 * m * norm v) by (apply Rmult_le_compat_r; lra). lra. }
    destruct ES as [ES | [ES SS]].
    + pose proof (G (172 / 100 * sin (t / 2))) as G1. assert (2 * sin (t' / 2) <= 172 / 100 * sin (t / 2) + 36 / 1000 * m); [|lra]. apply G1. intros v. rewrite ES.
      replace (vscale (3 / 10) (cross (vscale (sin (t / 2)) k) v)) with (vscale (3 / 10 * sin (t / 2)) (cross k v)) by (generalize (sin (t / 2)); la_ring).
      eapply Rle_trans; [apply correct_turn; exact U|]. apply Rmult_le_compat_r; [apply norm_nonneg | apply contraction; lra].
    + assert (2 * sin (t' / 2) <= 2 * sin (t / 2) + 36 / 1000 * m); [|lra]. apply G. intros v. rewrite ES.
      replace (vsub v (vscale (3 / 10) (cross vzero v))) with (vsub v (vscale 0 (cross k v))) by la_ring.
      eapply Rle_trans; [apply correct_turn; exact U|]. apply Rmult_le_compat_r; [apply norm_nonneg|].
      assert (C : cos t = 1 - 2 * sin (t / 2) * sin (t / 2)) by (rewrite <- cos_2a_sin; f_equal; field). rewrite C.
      replace (2 - 2 * (1 - 2 * sin (t / 2) * sin (t / 2)) + 0 * 0 - 2 * 0 * sin t) with (2 * sin (t / 2) * (2 * sin (t / 2))) by ring. rewrite sqrt_square by lra. lra.
  - (* position *)
    unfold perr. replace (vsub (tp T') (tp pose)) with
      (vadd (vsub (vsub (tp T') (tp T)) (vneg (mvec (tR T) (mvec gain EP)))) (vscale (7 / 10) (vsub (tp T) (tp pose)))).
    2:{ rewrite gain_vec, mvec_vscale. unfold EP. rewrite <- mvec_mmul, SO3_mul_T, mvec_I by exact RT. generalize (tp T') (tp T) (tp pose). intros x y z. apply vec3_eq; unfold vadd, vsub, vneg, vscale; cbn [vx vy vz]; field. }
    eapply Rle_trans; [apply norm_triangle|]. rewrite norm_vscale, (Rabs_right (7 / 10)) by lra. fold (perr T).
    rewrite gain_vec. lra.
Qed.
End Step.
