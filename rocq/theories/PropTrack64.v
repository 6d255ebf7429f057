(** Property C114: with last_joints, the inverse kinematics programs return the nearby solution itself in binary64. *)
From Coq Require Import Reals ZArith List Bool Lra Lia Psatz Permutation.
From Flocq Require Import Core.Core IEEE754.BinarySingleNaN.
From Verif Require Import LinAlg RealAux Py FactsReal FactsLinAlg ModelRot SpecRot FactsRot FactsNorm SpecSub FactsSub ModelFloat ModelFloat2 ModelFloat3 ModelFloat6 ModelFloat9 ModelFloat10 ModelFloat11 SpecRound FactsRound FactsB64 FactsExact FactsTrack SpecArc SpecSub4 SpecReach SpecRpy FactsRpy FactsIk64 FactsPath64 FactsJoint64 FactsArm64 FactsWrist64 ModelTransform ModelRobot ModelKin SpecKin SpecInvkin FactsKin SpecArc2 SpecRobot64 FactsRobot64 ModelInvkin FactsFind64 FactsSeek64 FactsFound64 SpecFind.
From Verif Require FactsRobot6 FactsIkGeo FactsIkOk PropNorm PropSub2.
From Verif Require Import PropFloat PropPi PropAngle PropRpy PropSub4 PropR2rot PropMove PropRobot64.
From Verif Require Import LinAlg RealAux Py FactsReal FactsLinAlg ModelRot SpecRot FactsRot FactsNorm SpecSub FactsSub ModelFloat ModelFloat2 ModelFloat3 ModelFloat6 ModelFloat9 ModelFloat10 ModelFloat11 ModelFloat12 SpecRound FactsRound FactsB64 FactsExact FactsTrack SpecArc SpecSub4 SpecReach SpecRpy FactsRpy FactsIk64 FactsPath64 FactsJoint64 FactsArm64 FactsWrist64 ModelTransform ModelRobot ModelKin SpecKin SpecInvkin FactsKin SpecArc2 SpecRobot64 FactsRobot64 FactsUr64 ModelInvkin FactsFind64 FactsSeek64 FactsUrFind64 SpecFind.
From Verif Require FactsRobot6 FactsUr FactsIkGeo FactsIkOk PropNorm PropSub2.
From Verif Require Import PropFloat PropPi PropAngle PropRpy PropSub4 PropR2rot PropMove PropRobot64 PropUr64.
From Verif Require Import PropFind64 PropUrFind64.
Import ListNotations.
Open Scope R_scope.

(** A solution within 5/4 rad of last_joints, joint by joint, away from singularities and limits: it survives the choice of close candidates and the sorting, and comes back without whole turns. *)
Theorem C114_tracks : forall L (f : b64 -> b64) bdot argsort rf r posef pose last sols a1 a2 a3 a4 a5 a6 M rho w h0 h1 h2 h3 h4 h5 p0 p1 p2 p3 p4 p5 p6 R06 v,
  In bdot b_dots -> libm_ok L (bpow radix2 (-52)) -> libm_total L -> libm_arc_ok L (bpow radix2 (-50)) -> libm_angle_ok L (bpow radix2 (-50)) -> libm_asin_ok f (bpow radix2 (-50)) ->
  opw r h0 h1 h2 h3 h4 h5 p0 p1 p2 p3 p4 p5 p6 -> wf_aux r -> stored_robot L bdot M rf r -> stored_pose L bdot M posef pose ->
  1 <= M <= bpow radix2 150 -> 1002 / 1000 * extent r pose <= M -> 1 <= rho -> 1 <= w -> rho * w <= 31 ->
  g_robot6_invkin (b64_arith L bdot) f b_rem argsort rf posef (Some last) = Ok sols ->
  (forall u, robot_point r [a1; a2; a3; a4; a5; a6] u = act pose u) -> Forall (fun a => Rabs a <= 4) [a1; a2; a3; a4; a5; a6] ->
  (forall ls us, grlower rf = Some ls -> grupper rf = Some us -> clear_of ls us (bpow radix2 (-13) * (rho * rho) * (w * w)) [a1; a2; a3; a4; a5; a6]) ->
  (forall l, Permutation (argsort l) (seq 0 (length l))) -> near_last last [a1; a2; a3; a4; a5; a6] ->
  wrist_of r pose (vadd p6 p5) R06 v -> M <= rho * Rabs (turn_rate ey v (vneg h0) a1) -> M * M <= rho * Rabs (reach_rate h2 (vadd p3 p4) p2 a3) ->
  M <= rho * norm (perp ey (vadd p2 (rotate h2 a3 (vadd p3 p4)))) -> 1 <= w * Rabs (sin a5) ->
  exists x, In x sols /\ close_joints [bpow radix2 (-38) * rho; bpow radix2 (-20) * (rho * rho); bpow radix2 (-21) * rho; bpow radix2 (-15) * (rho * rho) * (w * w); bpow radix2 (-16) * (rho * rho) * w; bpow radix2 (-13) * (rho * rho) * (w * w)] x [a1; a2; a3; a4; a5; a6].
Proof.
  intros. destruct (finds_near L f bdot argsort rf r posef pose (Some last) sols a1 a2 a3 a4 a5 a6 M rho w h0 h1 h2 h3 h4 h5 p0 p1 p2 p3 p4 p5 p6 R06 v) as (x & IX & _ & SX); try assumption; [intros _; assumption|].
  exists x. split; [exact IX|]. apply SX. discriminate.
Qed.
Print Assumptions C114_tracks.

(** The same for ur_invkin, whose fifth joint is not normalised: that one comes back up to whole turns. *)
Theorem C114_ur_tracks : forall L (f : b64 -> b64) bdot argsort rf r posef pose last sols a1 a2 a3 a4 a5 a6 M rho w h p0 p1 p2 p3 p4 p5 p6 R06 v,
  In bdot b_dots -> libm_ok L (bpow radix2 (-52)) -> libm_total L -> libm_arc_ok L (bpow radix2 (-50)) -> libm_angle_ok L (bpow radix2 (-50)) -> libm_asin_ok f (bpow radix2 (-50)) ->
  ur r h p0 p1 p2 p3 p4 p5 p6 -> wf_aux r -> stored_robot L bdot M rf r -> stored_pose L bdot M posef pose ->
  1 <= M <= bpow radix2 150 -> 1002 / 1000 * extent r pose <= M -> 1 <= rho <= 31 -> 1 <= w -> rho * rho * (w * w * w) <= 16000 ->
  g_ur_invkin (b64_arith L bdot) f b_rem argsort rf posef (Some last) = Ok sols ->
  (forall u, robot_point r [a1; a2; a3; a4; a5; a6] u = act pose u) -> Forall (fun a => Rabs a <= 4) [a1; a2; a3; a4; a6] ->
  (forall ls us, grlower rf = Some ls -> grupper rf = Some us ->
     (forall i a, i <> 4%nat -> nth_error [a1; a2; a3; a4; a5; a6] i = Some a -> clear_at ls us i (bpow radix2 (-16) * (rho * rho * (w * w * w))) a) /\
     half_turn ls us 1 /\ half_turn ls us 2 /\ Rabs a4 <= 14 / 5) ->
  (forall l, Permutation (argsort l) (seq 0 (length l))) -> near_last last [a1; a2; a3; a4; a5; a6] ->
  wrist_of r pose (vadd p6 p5) R06 v -> M <= rho * Rabs (turn_rate ey v (vneg ez) a1) -> M * M <= rho * Rabs (reach_rate h p3 p2 a3) ->
  M <= rho * norm (perp ey (vadd p2 (rotate h a3 p3))) -> 1 <= w * Rabs (sin a5) ->
  let tol := [bpow radix2 (-38) * rho; bpow radix2 (-16) * (rho * rho * (w * w * w)); bpow radix2 (-18) * (rho * (w * w * w)); bpow radix2 (-16) * (rho * rho * (w * w * w)); bpow radix2 (-22) * (w * w); bpow radix2 (-19) * (w * w * w)] in
  exists x, In x sols /\ same_angles tol x [a1; a2; a3; a4; a5; a6] /\ forall i y a d, i <> 4%nat -> nth_error x i = Some y -> nth_error [a1; a2; a3; a4; a5; a6] i = Some a -> nth_error tol i = Some d -> Rabs (bval y - a) <= d.
Proof.
  intros. destruct (ur_finds_near L f bdot argsort rf r posef pose (Some last) sols a1 a2 a3 a4 a5 a6 M rho w h p0 p1 p2 p3 p4 p5 p6 R06 v) as (x & IX & SX & SY); try assumption; [intros _; assumption|intros lj i a LE _ NA; injection LE as <-; match goal with N : near_last _ _ |- _ => exact (N i a NA) end|].
  exists x. split; [exact IX|]. split; [exact SX|]. apply SY. discriminate.
Qed.
Print Assumptions C114_ur_tracks.

(* ---- the robots of C111_ex and C112_ex, from last_joints (1, -1, 1, -1, 1, 1) ---- *)
Definition trk_last : list b64 := map b_ofZ [1; -1; 1; -1; 1; 1]%Z.
Definition trk_sort (l : list b64) : list nat := rev (seq 0 (length l)).
Lemma trk_perm l : Permutation (trk_sort l) (seq 0 (length l)).
Proof. apply Permutation_sym, Permutation_rev. Qed.
Lemma trk_near : near_last trk_last [0; 0; 0; 0; PI / 2; 0].
Proof.
  pose proof pi_lo as PL. pose proof pi_hi as PH. intros i a NA.
  assert (G : forall k, nth_error [1; -1; 1; -1; 1; 1]%Z i = Some k -> (-8 <= k <= 8)%Z -> Rabs (IZR k - a) <= 5 / 4 -> exists lj : b64, nth_error trk_last i = Some lj /\ bfin lj /\ Rabs (bval lj - a) <= 5 / 4).
  { intros k NK RK B. destruct (pin_int k RK) as [FK VK]. exists (b_ofZ k). unfold trk_last. rewrite nth_error_map, NK. split; [reflexivity|]. split; [exact FK|]. rewrite VK. exact B. }
  do 6 (destruct i as [|i]; [cbn in NA; injection NA as <-; refine (G _ eq_refl _ _); [lia|apply Rabs_le; lra]|]). destruct i; discriminate NA.
Qed.
Definition trk_run bdot : out (list (list b64)) := g_robot6_invkin (b64_arith pin_libm bdot) pin_asin b_rem trk_sort (pin_rf bdot) (pin_pose bdot) (Some trk_last).
Definition trku_run bdot : out (list (list b64)) := g_ur_invkin (b64_arith pinu_libm bdot) pin_asin b_rem trk_sort (pinu_rf bdot) (pinu_pose bdot) (Some trk_last).
Lemma trk_runs bdot : In bdot b_dots -> pin_test (trk_run bdot) = true.
Proof. intros H. cbn [In b_dots] in H. repeat (destruct H as [<- | H]; [vm_compute; reflexivity|]). contradiction. Qed.
Lemma trku_runs bdot : In bdot b_dots -> pin_test (trku_run bdot) = true.
Proof. intros H. cbn [In b_dots] in H. repeat (destruct H as [<- | H]; [vm_compute; reflexivity|]). contradiction. Qed.
Example C114_ex : forall bdot, In bdot b_dots -> exists sols x, trk_run bdot = Ok sols /\ (forall u, robot_point pin_r [0; 0; 0; 0; PI / 2; 0] u = act pin_goal u) /\ In x sols /\
  close_joints [bpow radix2 (-38) * 24; bpow radix2 (-20) * (24 * 24); bpow radix2 (-21) * 24; bpow radix2 (-15) * (24 * 24) * (1 * 1); bpow radix2 (-16) * (24 * 24) * 1; bpow radix2 (-13) * (24 * 24) * (1 * 1)] x [0; 0; 0; 0; PI / 2; 0].
Proof.
  intros bdot HD. pose proof (trk_runs bdot HD) as RT. destruct (trk_run bdot) as [sols|] eqn:E; [|discriminate RT]. clear RT.
  destruct pin_opw as [O W]. assert (R0 : forall k v, rotate k 0 v = v) by (intros; unfold rotate; rewrite sin_0, cos_0; la_ring).
  assert (LE : forall v n, 0 <= n -> n * n <= LinAlg.dot v v -> n <= norm v) by (intros v n P Q; unfold norm, norm2; rewrite <- (sqrt_square n P); apply sqrt_le_1_alt; exact Q).
  assert (GO : forall u, robot_point pin_r [0; 0; 0; 0; PI / 2; 0] u = act pin_goal u).
  { intros u. rewrite (FactsRobot6.opw_point _ _ _ _ _ _ _ _ _ _ _ _ _ _ _ _ _ _ _ _ _ O). cbv zeta. rewrite !rot_rotate by (unfold unit3, norm2, LinAlg.dot, ex, ey, ez; cbn; ring). rewrite !R0. unfold rotate. rewrite cos_PI2, sin_PI2.
    destruct u as [x y z]. unfold act, act_tool, pin_goal, pin_R06, ez, ex, ey. cbn. la_ring. }
  pose proof pi_hi as P4. pose proof PI2_3_2 as P3.
  exists sols. destruct (C114_tracks pin_libm pin_asin bdot trk_sort (pin_rf bdot) pin_r (pin_pose bdot) pin_goal trk_last sols 0 0 0 0 (PI / 2) 0 24 24 1 ez ey ey ex ey ex ez (V3 1 0 1) (V3 0 0 3) (V3 2 0 0) (V3 2 0 0) ex ez pin_R06 (V3 5 0 5)
      HD pin_ok pin_total pin_arc pin_angle pin_asin_ok O W (pin_robot 24 bdot ltac:(lra)) (pin_posed 24 bdot ltac:(lra))) as (x & IX & SX); try lra; try assumption.
  - split; [lra|]. apply Rle_trans with (bpow radix2 5); [cbn; lra|apply bpow_le; lia].
  - exact pin_extent.
  - repeat (constructor; [apply Rabs_le; lra|]). constructor.
  - intros ls us [= <-] [= <-] i a NA. assert (B13 : bpow radix2 (-13) * (24 * 24) * (1 * 1) <= 1 / 10) by (cbn; lra).
    assert (G : forall l u, nth_error [-1;-1;-1;-1;-2;-1]%Z i = Some l -> nth_error [1;1;1;1;2;1]%Z i = Some u -> (-8 <= l <= 8)%Z -> (-8 <= u <= 8)%Z -> IZR l + 1 / 10 <= a <= IZR u - 1 / 10 ->
      exists l u : b64, nth_error (map b_ofZ [-1;-1;-1;-1;-2;-1]%Z) i = Some l /\ nth_error (map b_ofZ [1;1;1;1;2;1]%Z) i = Some u /\ bfin l /\ bfin u /\ bval l + bpow radix2 (-13) * (24 * 24) * (1 * 1) <= a <= bval u - bpow radix2 (-13) * (24 * 24) * (1 * 1)).
    { intros l u NL NU RL RU BL. destruct (pin_int l RL) as [FL VL]. destruct (pin_int u RU) as [FU VU]. exists (b_ofZ l), (b_ofZ u). rewrite !nth_error_map, NL, NU. split; [reflexivity|]. split; [reflexivity|]. split; [exact FL|]. split; [exact FU|]. rewrite VL, VU. lra. }
    do 6 (destruct i as [|i]; [injection NA as <-; refine (G _ _ eq_refl eq_refl _ _ _); [lia|lia|lra]|]). destruct i; discriminate NA.
  - exact trk_perm.
  - exact trk_near.
  - intros [x y z]. unfold act, point6, act_tool, pin_goal, pin_R06, ez, ex. cbn. la_ring.
  - unfold turn_rate. rewrite R0. assert (1 <= Rabs (LinAlg.dot ey (cross (vneg ez) (V3 5 0 5)))) by (unfold LinAlg.dot, cross, vneg, ey, ez; cbn; unfold Rabs; destruct Rcase_abs; lra). lra.
  - unfold reach_rate. rewrite R0. assert (24 <= Rabs (2 * LinAlg.dot (V3 0 0 3) (cross ey (vadd (V3 2 0 0) (V3 2 0 0))))) by (unfold LinAlg.dot, cross, vadd, ey; cbn; unfold Rabs; destruct Rcase_abs; lra). lra.
  - rewrite R0. assert (3 <= norm (perp ey (vadd (V3 0 0 3) (vadd (V3 2 0 0) (V3 2 0 0))))) by (apply LE; [lra|]; unfold perp, ey, vsub, vadd, vscale, LinAlg.dot; cbn [vx vy vz]; lra). lra.
  - rewrite sin_PI2, Rabs_R1. lra.
  - exists x. auto.
Qed.
Print Assumptions C114_ex.
Example C114_ur_ex : forall bdot, In bdot b_dots -> exists sols x, trku_run bdot = Ok sols /\ (forall u, robot_point pinu_r [0; 0; 0; 0; PI / 2; 0] u = act pinu_goal u) /\ In x sols /\
  same_angles [bpow radix2 (-38) * 21; bpow radix2 (-16) * (21 * 21 * (1 * 1 * 1)); bpow radix2 (-18) * (21 * (1 * 1 * 1)); bpow radix2 (-16) * (21 * 21 * (1 * 1 * 1)); bpow radix2 (-22) * (1 * 1); bpow radix2 (-19) * (1 * 1 * 1)] x [0; 0; 0; 0; PI / 2; 0].
Proof.
  intros bdot HD. pose proof (trku_runs bdot HD) as RT. destruct (trku_run bdot) as [sols|] eqn:E; [|discriminate RT]. clear RT.
  destruct pinu_ur as [O W]. assert (R0 : forall k v, rotate k 0 v = v) by (intros; unfold rotate; rewrite sin_0, cos_0; la_ring).
  assert (LE : forall v n, 0 <= n -> n * n <= LinAlg.dot v v -> n <= norm v) by (intros v n P Q; unfold norm, norm2; rewrite <- (sqrt_square n P); apply sqrt_le_1_alt; exact Q).
  assert (GO : forall u, robot_point pinu_r [0; 0; 0; 0; PI / 2; 0] u = act pinu_goal u).
  { intros u. rewrite (ur_chain _ _ _ _ _ _ _ _ _ _ _ _ _ _ _ _ O). rewrite !R0. unfold rotate. rewrite cos_PI2, sin_PI2.
    destruct u as [x y z]. unfold point6, act, act_tool, pinu_goal, pinu_R06, ez, ex, ey. cbn. la_ring. }
  pose proof PI2_3_2 as P3.
  exists sols. destruct (C114_ur_tracks pinu_libm pin_asin bdot trk_sort (pinu_rf bdot) pinu_r (pinu_pose bdot) pinu_goal trk_last sols 0 0 0 0 (PI / 2) 0 22 21 1 ey ez ey (V3 3 0 0) (V3 0 0 4) (V3 0 (-1) 0) ey ex pinu_R06 (V3 3 0 5)
      HD pinu_ok pinu_total pin_arc pin_angle pin_asin_ok O W (pinu_robot 22 bdot ltac:(lra)) (pinu_posed 22 bdot ltac:(lra))) as (x & IX & SX & _); try lra; try assumption.
  - split; [lra|]. apply Rle_trans with (bpow radix2 5); [cbn; lra|apply bpow_le; lia].
  - exact pinu_extent.
  - repeat (constructor; [apply Rabs_le; lra|]). constructor.
  - intros ls us [= <-] [= <-]. destruct (pin_int (-1) ltac:(lia)) as [FL VL]. destruct (pin_int 1 ltac:(lia)) as [FU VU].
    assert (ALL : forall i, (i < 6)%nat -> nth_error (map b_ofZ [-1;-1;-1;-1;-1;-1]%Z) i = Some (b_ofZ (-1)) /\ nth_error (map b_ofZ [1;1;1;1;1;1]%Z) i = Some (b_ofZ 1)) by (intros i Hi; do 6 (destruct i as [|i]; [split; reflexivity|]); lia).
    assert (HALF : forall i, (i < 6)%nat -> half_turn (map b_ofZ [-1;-1;-1;-1;-1;-1]%Z) (map b_ofZ [1;1;1;1;1;1]%Z) i).
    { intros i Hi l u NL NU. destruct (ALL i Hi) as [A1 A2]. rewrite A1 in NL. rewrite A2 in NU. assert (l = b_ofZ (-1)) as -> by congruence. assert (u = b_ofZ 1) as -> by congruence. rewrite VL, VU. lra. }
    split; [|split; [apply HALF; lia|split; [apply HALF; lia|rewrite Rabs_R0; lra]]].
    intros i a I4 NA. assert (LI : (i < 6)%nat) by (apply (nth_error_Some [0; 0; 0; 0; PI / 2; 0]); rewrite NA; discriminate). destruct (ALL i LI) as [A1 A2].
    exists (b_ofZ (-1)), (b_ofZ 1). split; [exact A1|]. split; [exact A2|]. split; [exact FL|]. split; [exact FU|]. rewrite VL, VU.
    assert (a = 0) by (do 6 (destruct i as [|i]; [cbn in NA; congruence|]); lia). subst a. assert (bpow radix2 (-16) * (21 * 21 * (1 * 1 * 1)) <= 1 / 10) by (cbn; lra). lra.
  - exact trk_perm.
  - exact trk_near.
  - intros [x y z]. unfold act, point6, act_tool, pinu_goal, pinu_R06, ez, ex, ey. cbn. la_ring.
  - unfold turn_rate. rewrite R0. assert (3 <= Rabs (LinAlg.dot ey (cross (vneg ez) (V3 3 0 5)))) by (unfold LinAlg.dot, cross, vneg, ey, ez; cbn; unfold Rabs; destruct Rcase_abs; lra). lra.
  - unfold reach_rate. rewrite R0. assert (24 <= Rabs (2 * LinAlg.dot (V3 3 0 0) (cross ey (V3 0 0 4)))) by (unfold LinAlg.dot, cross, vadd, ey; cbn; unfold Rabs; destruct Rcase_abs; lra). lra.
  - rewrite R0. assert (5 <= norm (perp ey (vadd (V3 3 0 0) (V3 0 0 4)))) by (apply LE; [lra|]; unfold perp, ey, vsub, vadd, vscale, LinAlg.dot; cbn [vx vy vz]; lra). lra.
  - rewrite sin_PI2, Rabs_R1. lra.
  - exists x. auto.
Qed.
