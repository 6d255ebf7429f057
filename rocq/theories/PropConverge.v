(** Property C91: iterative_invkin converges from seeds near a regular solution. *)
From Coq Require Import Reals ZArith List Bool Lra Lia Psatz.
From Verif Require Import LinAlg RealAux Py FactsReal FactsLinAlg ModelRot SpecRot FactsRot FactsRot2 ModelTransform ModelRobot ModelKin SpecKin FactsKin FactsJac FactsNorm PropKin
  ModelInvkin SpecInvkin FactsInvkin SpecEquiv FactsIter PropIter SpecMove PropMove FactsAngle SpecConverge FactsTaylor FactsConverge.
Import ListNotations.
Open Scope R_scope.

Lemma dist1_nth a : forall b i, length a = length b -> (i < length b)%nat -> Rabs (nth i a 0 - nth i b 0) <= dist1 a b.
Proof.
  induction a as [|x a IH]; intros [|y b] i L Hi; try discriminate; [cbn in Hi; lia|]. injection L as L. unfold dist1 in *. cbn [map combine fst snd]. rewrite l1_cons.
  destruct i as [|i]; cbn [nth].
  - pose proof (l1_nonneg (map (fun p => fst p - snd p) (combine a b))). lra.
  - cbn [length] in Hi. pose proof (IH b i L ltac:(lia)). pose proof (Rabs_pos (x - y)). lra.
Qed.

Section Loop.
Context (pinv : list vec6 -> vec6 -> out (list R)) (r : robot) (pose : transform) (seed : list R) (tol c M m0 : R).
Hypothesis W : wf_robot r.
Hypothesis WA : wf_aux r.
Hypothesis PT : Forall plain_type (rtype r).
Hypothesis RP : rigid pose.
Hypothesis TOL : 2 / 1000000 <= tol.
Hypothesis C0 : 0 <= c.
Hypothesis M1 : 1 <= M.
Hypothesis LS : length seed = length (rtype r).
Hypothesis HM : m0 <= 3 / 10 /\ M * (c * c) * m0 <= 1 / 5.
Hypothesis RG : regular pinv r seed (6 * c * m0) c M.

Lemma loop_converges n : forall q T m, length q = length (rtype r) -> fwdkin r q true = Ok T -> within m pose T -> 0 <= m <= m0 ->
  dist1 q seed <= 6 * c * (m0 - m) -> m * (9 / 10) ^ n < tol ->
  exists q' T', iterative_loop pinv r pose gain gain tol (S n) q = Ok (true, q') /\ length q' = length (rtype r) /\ dist1 q' seed <= 6 * c * m0 /\
    fwdkin r q' true = Ok T' /\ within (2 * tol) pose T'.
Proof.
  induction n as [|n IH]; intros q T m LQ ET (PE & k & t & TU & SE) HMM DQ PW.
  all: assert (DB : dist1 q seed <= 6 * c * m0) by (assert (0 <= c * m) by (apply Rmult_le_pos; lra); lra).
  all: assert (MA : forall J, robotjacobian r q true = Ok J -> arm_length (rtype r) (tl (rP r)) q (norm (tool_point r)) <= M /\ right_inverse pinv c (to_tool_frame (tR T) J))
    by (intros J EJ; exact (RG q T J ltac:(lia) DB ET EJ)).
  all: pose proof (jacobian_value r q W WA PT ltac:(lia)) as EJ.
  all: assert (MC : M * (c * c) * m <= 1 / 5) by (assert (0 <= M * (c * c)) by (apply Rmult_le_pos; [lra | nra]); assert (M * (c * c) * m <= M * (c * c) * m0) by (apply Rmult_le_compat_l; lra); lra).
  all: destruct (one_step pinv r pose tol c M W WA PT RP TOL C0 M1 q T k t m LQ ET TU SE PE ltac:(lra) MC (proj1 (MA _ EJ)) (fun J E => proj2 (MA J E))) as [(ST & P2 & S2) | (TM & q' & T' & k' & t' & ST & LQ' & DD & ET' & TU' & SE' & PE')].
  - exists q, T. cbn [iterative_loop]. rewrite ST. cbn [bind fst]. split; [reflexivity|]. split; [exact LQ|]. split; [exact DB|]. split; [exact ET|]. split; [exact P2|]. exists k, t. split; assumption.
  - cbn [pow] in PW. lra.
  - exists q, T. change (iterative_loop pinv r pose gain gain tol (S (S n)) q) with (let* s := iterative_step pinv r pose gain gain tol q in if fst s then Ok s else iterative_loop pinv r pose gain gain tol (S n) (snd s)).
    rewrite ST. cbn [bind fst]. split; [reflexivity|]. split; [exact LQ|]. split; [exact DB|]. split; [exact ET|]. split; [exact P2|]. exists k, t. split; assumption.
  - change (iterative_loop pinv r pose gain gain tol (S (S n)) q) with (let* s := iterative_step pinv r pose gain gain tol q in if fst s then Ok s else iterative_loop pinv r pose gain gain tol (S n) (snd s)).
    rewrite ST. cbn [bind fst snd]. apply (IH q' T' (9 / 10 * m)); try assumption.
    + split; [exact PE'|]. exists k', t'. split; assumption.
    + lra.
    + pose proof (dist1_triangle q' q seed ltac:(lia) ltac:(lia)). lra.
    + cbn [pow] in PW. lra.
Qed.
End Loop.

(** The error shrinks by a tenth in every step. *)
Theorem C91_converges : forall pinv r pose seed tol n c M m T, wf_robot r -> wf_aux r -> Forall plain_type (rtype r) -> rigid pose ->
  length seed = length (rtype r) -> length seed <> 1%nat -> 2 / 1000000 <= tol -> 0 <= c -> 1 <= M ->
  fwdkin r seed true = Ok T -> within m pose T -> m <= 3 / 10 -> M * (c * c) * m <= 1 / 5 ->
  regular pinv r seed (6 * c * m) c M -> m * (9 / 10) ^ n < tol ->
  exists q Tq, iterative_invkin pinv r pose seed (S n) (mscale (3 / 10) I3) (mscale (3 / 10) I3) tol = Ok (true, q) /\
    dist1 q seed <= 6 * c * m /\ fwdkin r q true = Ok Tq /\ within (2 * tol) pose Tq.
Proof.
  intros pinv r pose seed tol n c M m T W WA PT RP LS L1 TOL C0 M1 ET WI M3 MC RG PW.
  assert (m0 : 0 <= m) by (destruct WI as [P _]; pose proof (norm_nonneg (vsub (tp T) (tp pose))); lra).
  destruct (loop_converges pinv r pose seed tol c M m W WA PT RP TOL C0 M1 LS (conj M3 MC) RG n seed T m LS ET WI) as (q & Tq & EL & LQ & DQ & EQ & WQ).
  { lra. } { rewrite dist1_self. lra. } { exact PW. }
  exists q, Tq. split; [|auto]. unfold iterative_invkin. rewrite LS, Nat.eqb_refl. cbn [negb]. fold gain. rewrite EL. cbn [bind fst snd].
  destruct (Nat.eqb_spec (length (rtype r)) 1) as [X|X]; [lia|]. rewrite <- LS in *. destruct (final_near r seed q ltac:(lia)) as (x & -> & NS). cbn [bind]. rewrite flat_map_some. do 2 f_equal.
  apply (near_seed_unique seed q); [exact NS|]. split; [exact LQ|]. split; [exact LQ|]. intros i Hi. split; [apply ang_eq_refl|].
  pose proof (dist1_nth q seed i LQ Hi) as DN. pose proof PI2_1 as P1.
  assert (CM : c * m <= 3 / 10).
  { assert (CC : c * c * m <= 1 / 5). { assert (1 * (c * c * m) <= M * (c * c * m)) by (apply Rmult_le_compat_r; [apply Rmult_le_pos; [nra | lra] | lra]). lra. }
    destruct (Rle_dec c 1) as [Q | Q]; [assert (c * m <= 1 * m) by (apply Rmult_le_compat_r; lra); lra|].
    assert (1 * (c * m) <= c * (c * m)) by (apply Rmult_le_compat_r; [apply Rmult_le_pos; lra | lra]). lra. }
  unfold Rabs in DN. destruct (Rcase_abs _); lra.
Qed.
(** With the default parameters. *)
Theorem C91_default : forall pinv r pose seed c M m T, wf_robot r -> wf_aux r -> Forall plain_type (rtype r) -> rigid pose ->
  length seed = length (rtype r) -> length seed <> 1%nat -> 0 <= c -> 1 <= M ->
  fwdkin r seed true = Ok T -> within m pose T -> m <= 3 / 10 -> M * (c * c) * m <= 1 / 5 -> regular pinv r seed (6 * c * m) c M ->
  exists q Tq, iterative_invkin pinv r pose seed 200 (mscale (3 / 10) I3) (mscale (3 / 10) I3) (1 / 10000) = Ok (true, q) /\
    dist1 q seed <= 6 * c * m /\ fwdkin r q true = Ok Tq /\ within (2 / 10000) pose Tq.
Proof.
  intros pinv r pose seed c M m T W WA PT RP LS L1 C0 M1 ET WI M3 MC RG.
  replace (2 / 10000) with (2 * (1 / 10000)) by field.
  apply (C91_converges pinv r pose seed (1 / 10000) 199 c M m T); try assumption; [lra|].
  assert (m0 : 0 <= m) by (destruct WI as [P _]; pose proof (norm_nonneg (vsub (tp T) (tp pose))); lra).
  assert (P22 : (9 / 10) ^ 22 <= 1 / 10) by (cbn [pow]; lra).
  assert (PP : 0 <= (9 / 10) ^ 22) by (apply pow_le; lra).
  assert (PB : 0 <= (9 / 10) ^ 111 <= 1) by (split; [apply pow_le; lra | rewrite <- (pow1 111); apply pow_incr; lra]).
  replace 199%nat with (22 + (22 + (22 + (22 + 111))))%nat by reflexivity. rewrite !pow_add. set (x := (9 / 10) ^ 22) in *. set (y := (9 / 10) ^ 111) in *.
  assert (x * x <= 1 / 100) by nra. assert (0 <= x * x) by nra. assert (x * x * (x * x) <= 1 / 10000) by nra. assert (0 <= x * x * (x * x)) by nra.
  assert (x * x * (x * x) * y <= 1 / 10000) by nra. assert (0 <= x * x * (x * x) * y) by nra.
  replace (m * (x * (x * (x * (x * y))))) with (m * (x * x * (x * x) * y)) by ring. nra.
Qed.

(** The seed near a solution. *)
Lemma sway_dist ty M : 1 <= M -> forall P theta theta' y, 0 <= y -> length theta = length theta' -> arm_length ty P theta' y <= M -> sway ty P theta theta' y <= M * dist1 theta theta'.
Proof.
  intros M1. induction ty as [|j ty IH]; intros P theta theta' y Y L MA.
  { cbn [sway]. apply Rmult_le_pos; [lra | apply l1_nonneg]. }
  cbn [sway arm_length] in *. destruct P as [|p P]; [apply Rmult_le_pos; [lra | apply l1_nonneg]|]. destruct theta as [|t theta], theta' as [|t' theta']; try discriminate; [apply Rmult_le_pos; [lra | apply l1_nonneg]|].
  injection L as L. pose proof (norm_nonneg p) as N0. pose proof (Rabs_pos t') as T0. pose proof (arm_length_ge ty P theta' y Y) as A0. pose proof (Rabs_pos (t - t')) as D0.
  assert (MA' : norm p + arm_length ty P theta' y <= M) by (destruct (turning j); lra).
  pose proof (IH P theta theta' y Y L ltac:(lra)) as B. unfold dist1 in *. cbn [map combine fst snd]. rewrite l1_cons, Rmult_plus_distr_l.
  assert (Rabs (t - t') * (if turning j then norm p + arm_length ty P theta' y else 1) <= M * Rabs (t - t')).
  { rewrite (Rmult_comm M). apply Rmult_le_compat_l; [exact D0 | destruct (turning j); lra]. }
  lra.
Qed.
Lemma turn_dist ty : forall theta theta', length theta = length theta' -> total_turn ty theta theta' <= dist1 theta theta'.
Proof.
  induction ty as [|j ty IH]; intros theta theta' L; [apply l1_nonneg|]. destruct theta as [|t theta], theta' as [|t' theta']; try discriminate; [cbn [total_turn]; apply l1_nonneg|]. injection L as L.
  pose proof (IH theta theta' L) as B. unfold dist1 in *. cbn [total_turn map combine fst snd]. rewrite l1_cons. pose proof (Rabs_pos (t - t')). destruct (turning j); lra.
Qed.
Theorem C91_near_solution : forall pinv r qs pose seed c M, wf_robot r -> wf_aux r -> Forall plain_type (rtype r) ->
  length seed = length (rtype r) -> length seed <> 1%nat -> length qs = length (rtype r) -> fwdkin r qs true = Ok pose ->
  0 <= c -> 1 <= M -> arm_length (rtype r) (tl (rP r)) qs (norm (act_opt (rflange r) (act_tool r vzero))) <= M ->
  let m := M * dist1 seed qs in m <= 3 / 10 -> M * (c * c) * m <= 1 / 5 -> regular pinv r seed (6 * c * m) c M ->
  exists q Tq, iterative_invkin pinv r pose seed 200 (mscale (3 / 10) I3) (mscale (3 / 10) I3) (1 / 10000) = Ok (true, q) /\
    dist1 q seed <= 6 * c * m /\ fwdkin r q true = Ok Tq /\ within (2 / 10000) pose Tq.
Proof.
  intros pinv r qs pose seed c M W WA PT LS L1 LQ EP C0 M1 MA m M3 MC RG.
  pose proof (C21_fwdkin_rigid r qs true pose W WA EP) as RP.
  pose proof (fwdkin_ignore r seed W ltac:(lia)) as ET. set (T := apply_aux r (bare_pose r seed)) in *.
  pose proof (C21_fwdkin_rigid r seed true T W WA ET) as RT.
  apply (C91_default pinv r pose seed c M m T); try assumption.
  destruct (turned_of pose T RP RT) as (k & t & U & B & _ & TU). split.
  - pose proof (C88_points r seed qs true true T pose W WA ET EP vzero) as CP.
    replace (tp T) with (act T vzero) by (unfold act; generalize (tp T) (tR T); la_ring). replace (tp pose) with (act pose vzero) by (unfold act; generalize (tp pose) (tR pose); la_ring).
    eapply Rle_trans; [exact CP|]. apply sway_dist; [exact M1 | apply norm_nonneg | lia | exact MA].
  - exists k, t. split; [exact TU|]. assert (2 * sin (t / 2) <= dist1 seed qs).
    { apply (sin_half_of k t); [exact U | exact B|]. intros v. destruct TU as (_ & _ & TV).
      rewrite <- (norm_SO3 (tR pose) (vsub (rotate k t v) v) RP), mvec_vsub, <- TV.
      eapply Rle_trans; [apply (C88_rotation r seed qs true true T pose W WA ET EP v)|]. apply Rmult_le_compat_r; [apply norm_nonneg|]. apply turn_dist. lia. }
    assert (D0 : 0 <= dist1 seed qs) by apply l1_nonneg. assert (1 * dist1 seed qs <= M * dist1 seed qs) by (apply Rmult_le_compat_r; lra). unfold m. lra.
Qed.

(* ---- a gantry with a roll-pitch-yaw wrist ---- *)
Definition gantry : robot :=
  Rb [ex; ey; ez; ez; ey; ex] [vzero; vzero; vzero; vzero; vzero; vzero; vzero] [Prismatic; Prismatic; Prismatic; Rotary; Rotary; Rotary]
     None None None None None None None None None None None None.
Definition triple (a b c : vec3) : R := dot a (cross b c).
(** the inverse of a Jacobian whose first three columns are orthonormal shifts and whose last three columns are turns *)
Definition gantry_inv (J : list vec6) (b : vec6) : out (list R) :=
  match J with
  | [c1; c2; c3; c4; c5; c6] =>
      let D := triple (hi3 c4) (hi3 c5) (hi3 c6) in
      Ok [dot (lo3 c1) (lo3 b); dot (lo3 c2) (lo3 b); dot (lo3 c3) (lo3 b);
          triple (hi3 b) (hi3 c5) (hi3 c6) / D; triple (hi3 c4) (hi3 b) (hi3 c6) / D; triple (hi3 c4) (hi3 c5) (hi3 b) / D]
  | _ => Err ValueError
  end.
Lemma gantry_wf : wf_robot gantry.
Proof. split; simpl; auto; try discriminate. repeat apply Forall_cons; try apply Forall_nil; unfold unit3, dot, ex, ey, ez; simpl; ring. Qed.
Lemma gantry_aux : wf_aux gantry.
Proof. split; simpl; auto; try tauto; try discriminate. Qed.
Lemma cramer a b c x : triple a b c <> 0 ->
  vadd (vscale (triple x b c / triple a b c) a) (vadd (vscale (triple a x c / triple a b c) b) (vscale (triple a b x / triple a b c) c)) = x.
Proof.
  intros D. assert (E : forall p q s, vadd (vscale (p / triple a b c) a) (vadd (vscale (q / triple a b c) b) (vscale (s / triple a b c) c))
    = vscale (/ triple a b c) (vadd (vscale p a) (vadd (vscale q b) (vscale s c)))) by (intros; generalize (triple a b c); intros; la_unfold; f_equal; unfold Rdiv; ring).
  rewrite E. assert (Q : vadd (vscale (triple x b c) a) (vadd (vscale (triple a x c) b) (vscale (triple a b x) c)) = vscale (triple a b c) x) by (unfold triple; la_ring).
  rewrite Q. destruct x as [x y z]. unfold vscale; cbn [vx vy vz]. f_equal; field; exact D.
Qed.
Lemma triple_le a b c : norm a <= 1 -> norm b <= 1 -> Rabs (triple a b c) <= norm c.
Proof.
  intros A B. unfold triple. replace (dot a (cross b c)) with (dot c (cross a b)) by la_ring. eapply Rle_trans; [apply abs_dot_le|].
  pose proof (norm_cross a b) as N. pose proof (norm_nonneg a). pose proof (norm_nonneg b). pose proof (norm_nonneg c).
  assert (norm a * norm b <= 1 * 1) by (apply Rmult_le_compat; lra). assert (norm c * norm (cross a b) <= norm c * 1) by (apply Rmult_le_compat_l; lra). lra.
Qed.
Lemma triple_SO3 A a b c : is_SO3 A -> triple (mvec A a) (mvec A b) (mvec A c) = triple a b c.
Proof. intros SA. unfold triple. rewrite <- SO3_cross, SO3_dot by exact SA. reflexivity. Qed.
Lemma frame_sum A y : is_SO3 A ->
  vadd (vscale (dot (mvec A ex) y) (mvec A ex)) (vadd (vscale (dot (mvec A ey) y) (mvec A ey)) (vscale (dot (mvec A ez) y) (mvec A ez))) = y.
Proof.
  intros SA. transitivity (mvec (mmul A (mT A)) y); [|rewrite (SO3_mul_T A SA); apply mvec_I]. clear SA. destruct A as [? ? ? ? ? ? ? ? ?], y as [y1 y2 y3].
  unfold mmul, mT, mvec, vadd, vscale, dot, ex, ey, ez; cbn. f_equal; ring.
Qed.
Lemma gantry_jac a b c d e f : robotjacobian gantry [a; b; c; d; e; f] true =
  Ok [V6 vzero ex; V6 vzero ey; V6 vzero ez; V6 ez vzero; V6 (mvec (rot ez d) ey) vzero; V6 (mvec (rot ez d) (mvec (rot ey e) ex)) vzero].
Proof.
  rewrite (jacobian_value gantry _ gantry_wf gantry_aux); [| repeat apply Forall_cons; try apply Forall_nil; unfold plain_type; auto | cbn; lia].
  assert (Z : forall A, mvec A vzero = vzero) by (intros; la_ring). assert (ZA : vadd vzero vzero = vzero) by la_ring. assert (ZC : forall k, cross k vzero = vzero) by (intros; la_ring).
  unfold gantry. cbn [rtype rH rP rbase tl jloc map rotcol chain tool_point act_opt act_tool rflange rRtool rptool joint_motion hi3 lo3].
  unfold tool_point, act_opt, act_tool. cbn [rflange rRtool rptool]. unfold rotcol. cbn [hi3 lo3]. rewrite ?mvec_I. assert (ZR : forall k t, rotate k t vzero = vzero) by (intros; unfold rotate; la_ring). repeat (rewrite ?ZA, ?Z, ?ZC, ?ZR). reflexivity.
Qed.
Lemma gantry_det A d e : is_SO3 A -> Rabs e <= 3 / 10 ->
  triple (mvec A ez) (mvec A (mvec (rot ez d) ey)) (mvec A (mvec (rot ez d) (mvec (rot ey e) ex))) <= - (4 / 5).
Proof.
  intros SA E. rewrite triple_SO3 by exact SA. assert (Uz : unit3 ez) by (unfold unit3, dot, ez; cbn; ring). assert (Uy : unit3 ey) by (unfold unit3, dot, ey; cbn; ring).
  replace ez with (mvec (rot ez d) ez) at 1 by (apply rot_axis). rewrite triple_SO3 by (apply rot_SO3; exact Uz).
  rewrite rot_rotate by exact Uy. replace (triple ez ey (rotate ey e ex)) with (- cos e) by (unfold triple, rotate, dot, cross, vadd, vscale, ex, ey, ez; cbn; ring).
  assert (C : 1 - cos e <= e * e / 2).
  { replace e with (2 * (e / 2)) at 1 by field. rewrite cos_2a_sin. pose proof (sin_lip (e / 2) 0) as S0. rewrite sin_0, !Rminus_0_r in S0. pose proof (Rabs_pos (sin (e / 2))) as S1.
    assert (Q : Rabs (sin (e / 2)) * Rabs (sin (e / 2)) <= Rabs (e / 2) * Rabs (e / 2)) by (apply Rmult_le_compat; lra). rewrite <- !Rabs_mult, !Rabs_right in Q; [lra | apply Rle_ge, Rle_0_sqr | apply Rle_ge, Rle_0_sqr]. }
  assert (Rabs e * Rabs e <= 3 / 10 * (3 / 10)) by (apply Rmult_le_compat; try apply Rabs_pos; lra). rewrite <- Rabs_mult, Rabs_right in H by (apply Rle_ge, Rle_0_sqr). lra.
Qed.
Lemma gantry_regular rho : rho <= 3 / 10 -> regular gantry_inv gantry [0; 0; 0; 0; 0; 0] rho 4 1.
Proof.
  intros RHO q T J LQ DQ ET EJ. destruct q as [|a [|b [|c [|d [|e [|f [|]]]]]]]; try discriminate LQ.
  unfold dist1 in DQ. cbn [map combine fst snd] in DQ. rewrite !l1_cons, !Rminus_0_r in DQ. change (l1 []) with 0 in DQ.
  pose proof (Rabs_pos a). pose proof (Rabs_pos b). pose proof (Rabs_pos c). pose proof (Rabs_pos d). pose proof (Rabs_pos e). pose proof (Rabs_pos f). split.
  - unfold gantry. cbn [rtype rP tl arm_length turning act_opt act_tool rflange rRtool rptool]. rewrite norm_vzero. lra.
  - rewrite gantry_jac in EJ. injection EJ as <-. pose proof (SO3_T (tR T) (C21_fwdkin_rigid gantry _ true T gantry_wf gantry_aux ET)) as SA.
    set (A := mT (tR T)) in *. clearbody A. cbn [map hi3 lo3]. pose proof (gantry_det A d e SA ltac:(lra)) as DT.
    assert (Uz : unit3 ez) by (unfold unit3, dot, ez; cbn; ring). assert (Uy : unit3 ey) by (unfold unit3, dot, ey; cbn; ring). assert (Ux : unit3 ex) by (unfold unit3, dot, ex; cbn; ring).
    assert (N4 : norm (mvec A ez) <= 1) by (rewrite norm_SO3, norm_unit by assumption; lra).
    assert (N5 : norm (mvec A (mvec (rot ez d) ey)) <= 1) by (rewrite !norm_SO3, norm_unit by (try apply rot_SO3; assumption); lra).
    assert (N6 : norm (mvec A (mvec (rot ez d) (mvec (rot ey e) ex))) <= 1) by (rewrite !norm_SO3, norm_unit by (try apply rot_SO3; assumption); lra).
    assert (N1 : norm (mvec A ex) <= 1) by (rewrite norm_SO3, norm_unit by assumption; lra). assert (N2 : norm (mvec A ey) <= 1) by (rewrite norm_SO3, norm_unit by assumption; lra).
    set (h4 := mvec A ez) in *. set (h5 := mvec A (mvec (rot ez d) ey)) in *. set (h6 := mvec A (mvec (rot ez d) (mvec (rot ey e) ex))) in *.
    intros [x y]. eexists. split; [reflexivity|]. split; [reflexivity|]. cbn [hi3 lo3]. split.
    + cbn [jac_apply hi3 lo3]. replace (mvec A vzero) with vzero by (generalize A; la_ring). f_equal.
      * etransitivity; [|apply (cramer h4 h5 h6 x); apply Rlt_not_eq; lra]. generalize (dot (mvec A ex) y) (dot (mvec A ey) y) (dot (mvec A ez) y) (triple x h5 h6 / triple h4 h5 h6) (triple h4 x h6 / triple h4 h5 h6) (triple h4 h5 x / triple h4 h5 h6). generalize h4 h5 h6. la_ring.
      * etransitivity; [|apply (frame_sum A y SA)]. fold h4. generalize (dot (mvec A ex) y) (dot (mvec A ey) y) (dot (mvec A ez) y) (triple x h5 h6 / triple h4 h5 h6) (triple h4 x h6 / triple h4 h5 h6) (triple h4 h5 x / triple h4 h5 h6) (mvec A ex) (mvec A ey). generalize h4 h5 h6. la_ring.
    + rewrite !l1_cons. change (l1 []) with 0.
      assert (DD : forall u, norm u <= 1 -> Rabs (dot u y) <= norm y) by (intros u NU; eapply Rle_trans; [apply abs_dot_le|]; pose proof (norm_nonneg y); pose proof (Rmult_le_compat_r (norm y) _ _ (norm_nonneg y) NU); lra).
      assert (QQ : forall s, Rabs s <= norm x -> Rabs (s / triple h4 h5 h6) <= 5 / 4 * norm x).
      { intros s HS. unfold Rdiv at 1. rewrite Rabs_mult, Rabs_inv, (Rabs_left (triple h4 h5 h6)) by lra. rewrite (Rmult_comm (5 / 4)). apply Rmult_le_compat; [apply Rabs_pos | left; apply Rinv_0_lt_compat; lra | exact HS|].
        replace (5 / 4) with (/ (4 / 5)) by field. apply Rinv_le_contravar; lra. }
      pose proof (DD _ N1). pose proof (DD _ N2). pose proof (DD _ N4).
      pose proof (QQ _ (triple_le h4 h5 x N4 N5)).
      assert (Q5 : Rabs (triple h4 x h6) <= norm x) by (replace (triple h4 x h6) with (triple h6 h4 x) by (unfold triple; generalize h4 h6 x; la_ring); apply triple_le; assumption).
      assert (Q4 : Rabs (triple x h5 h6) <= norm x) by (replace (triple x h5 h6) with (triple h5 h6 x) by (unfold triple; generalize h5 h6 x; la_ring); apply triple_le; assumption).
      pose proof (QQ _ Q4). pose proof (QQ _ Q5). pose proof (norm_nonneg x). pose proof (norm_nonneg y). fold h4. lra.
Qed.
(** From the zero seed the gantry reaches every pose that it takes within 1/80 of the seed, and the loop of the program says so. *)
Example C91_gantry : forall qs pose, length qs = 6%nat -> dist1 [0; 0; 0; 0; 0; 0] qs <= 1 / 80 -> fwdkin gantry qs true = Ok pose ->
  exists q Tq, iterative_invkin gantry_inv gantry pose [0; 0; 0; 0; 0; 0] 200 (mscale (3 / 10) I3) (mscale (3 / 10) I3) (1 / 10000) = Ok (true, q) /\
    fwdkin gantry q true = Ok Tq /\ within (2 / 10000) pose Tq.
Proof.
  intros qs pose L D E. pose proof (C91_near_solution gantry_inv gantry qs pose [0; 0; 0; 0; 0; 0] 4 1 gantry_wf gantry_aux
    ltac:(repeat apply Forall_cons; try apply Forall_nil; unfold plain_type; auto) eq_refl ltac:(discriminate) L E ltac:(lra) ltac:(lra)) as X. cbv zeta in X.
  destruct X as (q & Tq & X1 & X2 & X3 & X4).
  - destruct qs as [|a [|b [|c [|d [|e [|f [|]]]]]]]; try discriminate L. unfold dist1 in D. cbn [map combine fst snd] in D. rewrite !l1_cons in D. change (l1 []) with 0 in D.
    unfold gantry. cbn [rtype rP tl arm_length turning act_opt act_tool rflange rRtool rptool]. rewrite norm_vzero.
    rewrite <- (Rabs_Ropp a), <- (Rabs_Ropp b), <- (Rabs_Ropp c). unfold Rminus in D. rewrite !Rplus_0_l in D.
    pose proof (Rabs_pos (- d)). pose proof (Rabs_pos (- e)). pose proof (Rabs_pos (- f)). lra.
  - lra.
  - lra.
  - apply gantry_regular. lra.
  - exists q, Tq. auto.
Qed.
Example C91_gantry_moves : dist1 [0; 0; 0; 0; 0; 0] [1 / 200; 0; 0; 0; 0; 1 / 200] <= 1 / 80 /\
  exists pose, fwdkin gantry [1 / 200; 0; 0; 0; 0; 1 / 200] true = Ok pose.
Proof.
  split.
  - unfold dist1. cbn [map combine fst snd]. rewrite !l1_cons. change (l1 []) with 0. unfold Rabs. repeat destruct (Rcase_abs _); lra.
  - eexists. apply fwdkin_ignore; [exact gantry_wf | cbn; lia].
Qed.
Print Assumptions C91_converges.
Print Assumptions C91_default.
Print Assumptions C91_near_solution.
