(** Properties C34, C35, C41: joint normalisation, candidate lists and the in-place change of
    the robot. *)
From Coq Require Import Reals ZArith List Bool Lia Lra Psatz Sorting.Permutation Sorting.Sorted.
From Verif Require Import LinAlg RealAux Py FactsReal FactsLinAlg ModelRot SpecRot FactsRot
  ModelTransform ModelRobot ModelKin SpecKin FactsKin FactsJac ModelSub SpecSub FactsSub ModelInvkin SpecInvkin FactsInvkin FactsIkGeo FactsRobot6 FactsIkErr FactsIkMut.
Import ListNotations.
Open Scope R_scope.

(** A six-joint robot with limits -3..3, and one without limits *)
Definition r6 (p0 p1 p2 p3 p4 p5 p6 : vec3) (lower upper : option (list R)) : robot :=
  Rb [ez; ey; ey; ex; ey; ex] [p0; p1; p2; p3; p4; p5; p6] [Rotary; Rotary; Rotary; Rotary; Rotary; Rotary]
     lower upper None None None None None None None None None None.
Definition lo3s : list R := [-3; -3; -3; -3; -3; -3].
Definition up3s : list R := [3; 3; 3; 3; 3; 3].
Lemma r6_wf p0 p1 p2 p3 p4 p5 p6 lo up : (forall l, lo = Some l -> length l = 6%nat) -> (forall u, up = Some u -> length u = 6%nat) ->
  wf_robot (r6 p0 p1 p2 p3 p4 p5 p6 lo up).
Proof.
  intros L U. split; simpl; auto. repeat apply Forall_cons; try apply Forall_nil; unfold unit3, dot, ex, ey, ez; simpl; ring.
Qed.
Lemma r6_aux p0 p1 p2 p3 p4 p5 p6 lo up : wf_aux (r6 p0 p1 p2 p3 p4 p5 p6 lo up).
Proof. split; simpl; auto; try tauto; try discriminate. Qed.
Lemma r6_limits p0 p1 p2 p3 p4 p5 p6 lo up j l u : limits_of (r6 p0 p1 p2 p3 p4 p5 p6 (Some lo) (Some up)) j l u <->
  nth_error lo j = Some l /\ nth_error up j = Some u.
Proof. unfold limits_of. simpl. split; [intros (a & b & A & B & C & D); inversion A; inversion B; subst; auto|intros []; exists lo, up; auto]. Qed.
Definition r_lim : robot := r6 ez ex (V3 0 0 2) (V3 (1/2) 0 0) (V3 (1/2) 0 0) ex vzero (Some lo3s) (Some up3s).
Definition r_free : robot := r6 ez ex (V3 0 0 2) (V3 (1/2) 0 0) (V3 (1/2) 0 0) ex vzero None None.
Example r_lim_wf : wf_robot r_lim. Proof. apply r6_wf; intros l E; inversion E; reflexivity. Qed.
Example r_lim_allowed j x : (j < 6)%nat -> -3 < x < 3 -> allowed r_lim j x.
Proof.
  intros J B l u L. apply r6_limits in L. unfold lo3s, up3s in L.
  do 6 (destruct j as [|j]; [simpl in L; destruct L as [E F]; inversion E; inversion F; subst; lra|]). lia.
Qed.
Example r_lim_not_allowed j x : (j < 6)%nat -> allowed r_lim j x -> -3 < x < 3.
Proof.
  intros J A. apply A. apply r6_limits. unfold lo3s, up3s. do 6 (destruct j as [|j]; [simpl; auto|]). lia.
Qed.

(* ================= C34 ================= *)
Lemma lims_iff r last j lu x : lims (normalize_joints r last false) j lu -> (in_lims lu x <-> allowed r j x).
Proof.
  intros L. split; [apply (lims_allowed r last); auto|].
  unfold lims, normalize_joints in L. simpl in L. intros A. unfold in_lims. destruct lu as [[l u]|]; auto.
  destruct (rlower r) as [ls|] eqn:E; [|destruct L]. destruct (rupper r) as [us|] eqn:F; [|destruct L]. destruct L as [Ll Lu].
  apply A. exists ls, us. auto.
Qed.
Theorem C34_sound : forall r last ignore j theta x, normalize (normalize_joints r last ignore) j theta = Ok (Some x) ->
  ang_eq x theta /\ (ignore = false -> allowed r j x).
Proof.
  intros r last ignore j theta x E. destruct (normalize_some _ _ _ _ E) as (lu & L & A & I). split; auto.
  intros ->. eapply lims_allowed; eauto.
Qed.
(** The angle is the nearest one to last_joints among all equivalent allowed angles. *)
Theorem C34_closest : forall r l j lj theta x, wf_robot r -> length l = length (rtype r) -> nth_error l j = Some lj ->
  normalize (normalize_joints r (Some l) false) j theta = Ok (Some x) ->
  forall y, ang_eq y theta -> allowed r j y -> Rabs (x - lj) <= Rabs (y - lj).
Proof.
  intros r l j lj theta x W L N E y A Al.
  assert (J : (j < length (rtype r))%nat) by (rewrite <- L; apply nth_error_Some; congruence).
  assert (ZL : lims_len (normalize_joints r (Some l) false) (length (rtype r))) by (apply normalizer_len; auto; intros l' El; inversion El; subst; auto).
  destruct (lims_total _ _ j ZL J) as [lu Lu].
  destruct (normalize_spec _ j theta lu Lu) as [(F & _)|(x' & F & _ & _ & _ & C)]; [intros l' El; inversion El; subst; congruence|congruence|].
  rewrite E in F. inversion F; subst x'. apply (C l lj); auto. apply (lims_iff r (Some l) j); auto.
Qed.
(** Nothing is returned only if neither the angle nor its neighbours one turn away are
    allowed. *)
Theorem C34_none : forall r last j theta, wf_robot r -> (j < length (rtype r))%nat -> (forall l, last = Some l -> length l = length (rtype r)) ->
  (normalize (normalize_joints r last false) j theta = Ok None <->
   ~ allowed r j theta /\ ~ allowed r j (theta - 2 * PI) /\ ~ allowed r j (theta + 2 * PI)).
Proof.
  intros r last j theta W J LL.
  assert (ZL : lims_len (normalize_joints r last false) (length (rtype r))) by (apply normalizer_len; auto).
  destruct (lims_total _ _ j ZL J) as [lu Lu].
  rewrite <- !(lims_iff r last j lu _ Lu).
  destruct (normalize_spec _ j theta lu Lu) as [(F & X)|(x & F & A & I & N & C)]; [intros l' El; rewrite (LL l' El); auto|rewrite F; tauto|].
  rewrite F. split; [discriminate|]. intros X. exfalso. pose proof (normalize_start _ j theta lu Lu) as S.
  rewrite (proj2 (start_none lu theta) X) in S. congruence.
Qed.
(** The call never raises for a joint of the robot. *)
Theorem C34_total : forall r last j theta, wf_robot r -> (j < length (rtype r))%nat -> (forall l, last = Some l -> length l = length (rtype r)) ->
  exists o, normalize (normalize_joints r last false) j theta = Ok o.
Proof. intros r last j theta W J LL. apply (normalize_total _ (length (rtype r))); auto. apply normalizer_len; auto. Qed.
(** An allowed equivalent angle less than two turns away is enough. *)
Theorem C34_found : forall r last j theta y, wf_robot r -> (j < length (rtype r))%nat -> (forall l, last = Some l -> length l = length (rtype r)) ->
  allowed r j y -> ang_eq theta y -> Rabs (theta - y) < 4 * PI ->
  exists x, normalize (normalize_joints r last false) j theta = Ok (Some x).
Proof.
  intros r last j theta y W J LL Al [n A] B. destruct (C34_total r last j theta W J LL) as [[x|] E]; eauto. exfalso.
  apply C34_none in E as (E0 & E1 & E2); auto. pose proof PI_pos as PP. apply Rabs_def2 in B.
  assert (n = 0 \/ n = 1 \/ n = -1)%Z as [-> | [-> | -> ]].
  { assert (-2 < IZR n < 2) by nra. assert (-2 < n < 2)%Z by (split; apply lt_IZR; lra). lia. }
  - apply E0. replace theta with y by lra. auto.
  - apply E1. replace (theta - 2 * PI) with y by lra. auto.
  - apply E2. replace (theta + 2 * PI) with y by lra. auto.
Qed.
Example C34_ex : wf_robot r_lim /\ (2 < length (rtype r_lim))%nat /\ allowed r_lim 2 1 /\ ang_eq (1 + 2 * PI) 1 /\ ~ allowed r_lim 2 (1 + 2 * PI) /\
  Rabs (1 + 2 * PI - 1) < 4 * PI.
Proof.
  pose proof PI_lower. split; [apply r_lim_wf|]. split; [simpl; lia|]. split; [apply r_lim_allowed; [lia|lra]|].
  split; [exists 1%Z; simpl; ring|]. split; [intros A; apply r_lim_not_allowed in A; [lra|lia]|]. rewrite Rabs_right; lra.
Qed.
(** Only one turn either way is tried: an equivalent angle inside the limits can be missed. *)
Theorem C34_far_refuted : exists r j theta y, wf_robot r /\ (j < length (rtype r))%nat /\ allowed r j y /\ ang_eq theta y /\
  normalize (normalize_joints r None false) j theta = Ok None.
Proof.
  exists r_lim, 2%nat, (4 * PI), 0. pose proof PI_lower. split; [apply r_lim_wf|]. split; [simpl; lia|].
  split; [apply r_lim_allowed; [lia|lra]|]. split; [exists 2%Z; simpl; ring|].
  apply C34_none; [apply r_lim_wf|simpl; lia|discriminate|].
  repeat split; intros A; apply r_lim_not_allowed in A; try lia; lra.
Qed.
(** The limits are open here while fwdkin accepts the closed interval: a joint exactly at its
    limit is dropped. *)
Theorem C34_open_refuted : exists r j theta, wf_robot r /\ (j < length (rtype r))%nat /\
  within_limits r [0; 0; theta; 0; 0; 0] /\ normalize (normalize_joints r None false) j theta = Ok None.
Proof.
  exists r_lim, 2%nat, 3. pose proof PI_lower. split; [apply r_lim_wf|]. split; [simpl; lia|]. split.
  - unfold within_limits, r_lim, lo3s, up3s; simpl. split; repeat apply Forall2_cons; try apply Forall2_nil; lra.
  - apply C34_none; [apply r_lim_wf|simpl; lia|discriminate|].
    repeat split; intros A; apply r_lim_not_allowed in A; try lia; lra.
Qed.

(* ================= C35 ================= *)
(** Without last_joints the candidates keep their order and only the disallowed go. *)
Theorem C35_no_last : forall argsort r j theta res, call1 argsort (normalize_joints r None false) j theta = Ok res ->
  filter_out (normalize (normalize_joints r None false) j) theta = Ok res.
Proof. intros argsort r j theta res E. rewrite <- E. symmetry. apply candidates_no_last. reflexivity. Qed.
(** With last_joints the normalised candidates come nearest first, or only the one within a
    quarter turn is kept. *)
Theorem C35_sorted : forall argsort, argsort_spec argsort -> forall r l j lj theta res, nth_error l j = Some lj ->
  call1 argsort (normalize_joints r (Some l) false) j theta = Ok res ->
  exists normed, filter_out (normalize (normalize_joints r (Some l) false) j) theta = Ok normed /\ incl res normed /\
    nearest_first (fun x => Rabs (x - lj)) res /\
    (Permutation res normed \/
     exists x, res = [x] /\ Rabs (x - lj) < PI / 2 /\ In x normed /\
       forall pre post, normed = pre ++ x :: post -> Forall (fun y => PI / 2 <= Rabs (y - lj)) (pre ++ post)).
Proof.
  intros argsort SP r l j lj theta res N E. unfold call1 in E.
  destruct (candidates_incl argsort _ _ _ _ _ _ E) as (normed & F & I & _). exists normed. split; auto. split; auto.
  assert (LJ : last_of_joint (normalize_joints r (Some l) false) j = lj) by (unfold last_of_joint; simpl; apply nth_error_nth; auto).
  destruct (candidates_last argsort SP (normalize_joints r (Some l) false) (normalize (normalize_joints r (Some l) false) j) (fun x => Rabs (x - last_of_joint (normalize_joints r (Some l) false) j))
     (fun x => Rltb (Rabs (x - last_of_joint (normalize_joints r (Some l) false) j)) (PI / 2)) theta normed) as (res' & E' & X); auto; [discriminate|].
  rewrite E in E'. inversion E'; subst res'. rewrite LJ in X. clear E E'.
  destruct X as [[P S]|(x & -> & Ix & Fx)]; [auto|].
  assert (Bx : Rabs (x - lj) < PI / 2).
  { assert (K : In x (filter (fun x => Rltb (Rabs (x - lj)) (PI / 2)) normed)) by (rewrite Fx; simpl; auto).
    apply filter_In in K as [_ K]. apply Rltb_true. auto. }
  split; [repeat constructor|]. right. exists x. repeat split; auto.
  intros pre post ->. rewrite filter_app in Fx. simpl in Fx. rewrite (Rltb_lt _ _ Bx) in Fx.
  assert (filter (fun x => Rltb (Rabs (x - lj)) (PI / 2)) pre = [] /\ filter (fun x => Rltb (Rabs (x - lj)) (PI / 2)) post = []) as [Fp Fq].
  { destruct (filter _ pre) as [|a p] eqn:Fp; simpl in Fx; [inversion Fx; auto|]. inversion Fx. destruct p; discriminate. }
  apply Forall_app. split; apply Forall_forall; intros y Iy; apply Rnot_lt_le; intros C.
  - assert (K : In y (filter (fun x => Rltb (Rabs (x - lj)) (PI / 2)) pre)) by (apply filter_In; split; auto; apply Rltb_lt; auto). rewrite Fp in K; destruct K.
  - assert (K : In y (filter (fun x => Rltb (Rabs (x - lj)) (PI / 2)) post)) by (apply filter_In; split; auto; apply Rltb_lt; auto). rewrite Fq in K; destruct K.
Qed.
(** The same for the pair of wrist joints. *)
Theorem C35_sorted_pair : forall argsort, argsort_spec argsort -> forall r l i j li lj theta res, nth_error l i = Some li -> nth_error l j = Some lj ->
  call2 argsort (normalize_joints r (Some l) false) (i, j) theta = Ok res ->
  exists normed, filter_out (normalize_pair (normalize_joints r (Some l) false) (i, j)) theta = Ok normed /\ incl res normed /\
    nearest_first (fun x => euclid [fst x; snd x] [li; lj]) res /\
    (Permutation res normed \/ exists x, res = [x] /\ Rabs (fst x - li) < PI / 2 /\ Rabs (snd x - lj) < PI / 2 /\ In x normed).
Proof.
  intros argsort SP r l i j li lj theta res Ni N E. unfold call2 in E. cbn [fst snd] in E.
  assert (LI : last_of_joint (normalize_joints r (Some l) false) i = li) by (unfold last_of_joint; simpl; apply nth_error_nth; auto).
  assert (LJ : last_of_joint (normalize_joints r (Some l) false) j = lj) by (unfold last_of_joint; simpl; apply nth_error_nth; auto).
  rewrite LI, LJ in E.
  destruct (candidates_incl argsort _ _ _ _ _ _ E) as (normed & F & I & _). exists normed. split; auto. split; auto.
  destruct (candidates_last argsort SP (normalize_joints r (Some l) false) (normalize_pair (normalize_joints r (Some l) false) (i, j)) (fun t => joint_dist [fst t; snd t] [li; lj])
     (fun t => Rltb (Rabs (fst t - li)) (PI / 2) && Rltb (Rabs (snd t - lj)) (PI / 2))%bool theta normed) as (res' & E' & X); auto; [discriminate|].
  rewrite E in E'. inversion E'; subst res'. clear E E'.
  destruct X as [[P S]|(x & -> & Ix & Fx)].
  - split; auto.
  - assert (K : In x (filter (fun t => Rltb (Rabs (fst t - li)) (PI / 2) && Rltb (Rabs (snd t - lj)) (PI / 2))%bool normed)) by (rewrite Fx; simpl; auto).
    apply filter_In in K as [_ K]. apply andb_prop in K as [K1 K2]. apply Rltb_true in K1, K2.
    split; [repeat constructor|]. right. exists x. auto.
Qed.
(** Valid candidates are lost: both 0 and 2 are allowed, only 0 is returned. *)
Theorem C35_complete_refuted : exists argsort r l j theta x, argsort_spec argsort /\ wf_robot r /\ length l = 6%nat /\ In x theta /\ allowed r j x /\
  normalize (normalize_joints r (Some l) false) j x = Ok (Some x) /\
  exists res, call1 argsort (normalize_joints r (Some l) false) j theta = Ok res /\ ~ In x res.
Proof.
  exists insertion_argsort, r_lim, [0; 0; 0; 0; 0; 0], 2%nat, [0; 2], 2. pose proof PI_lower as P3. pose proof PI_4 as P4.
  assert (N : forall x, -3 < x < 3 -> normalize (normalize_joints r_lim (Some [0; 0; 0; 0; 0; 0]) false) 2 x = Ok (Some x)).
  { intros x B. unfold normalize. simpl. unfold inside. rewrite !Rltb_lt by lra. cbn [andb].
    assert (T : turns_to 0 x = 0%Z).
    { pose proof (turns_to_spec 0 x) as T. cbv zeta in T. set (n := turns_to 0 x) in *.
      assert (-1 < IZR n < 1) by nra. assert (-1 < n < 1)%Z by (split; apply lt_IZR; lra). lia. }
    rewrite T. reflexivity. }
  split; [apply insertion_argsort_spec|]. split; [apply r_lim_wf|]. split; auto. split; [simpl; auto|]. split; [apply r_lim_allowed; [lia|lra]|].
  split; [apply N; lra|]. exists [0]. split.
  - unfold call1, candidates. simpl filter_out. rewrite !N by lra. cbn [bind nlast normalize_joints]. simpl length. cbn [Nat.ltb Nat.leb].
    simpl filter. change (last_of_joint (normalize_joints r_lim (Some [0; 0; 0; 0; 0; 0]) false) 2) with 0.
    rewrite Rltb_lt by (rewrite Rminus_0_r, Rabs_R0; lra). rewrite Rltb_ge by (rewrite Rminus_0_r, Rabs_right; lra). reflexivity.
  - intros [Z|[]]. lra.
Qed.
Example C35_ex : argsort_spec insertion_argsort /\ nth_error [0; 0; 1/10; 0; 0; 0] 2 = Some (1/10) /\
  exists res, call1 insertion_argsort (normalize_joints r_free (Some [0; 0; 1/10; 0; 0; 0]) false) 2 [2; -2; 7/4] = Ok res.
Proof.
  split; [apply insertion_argsort_spec|]. split; auto. apply candidates_total; [apply insertion_argsort_spec|].
  intros x _. apply (normalize_total _ 6); [|lia]. apply normalizer_len; auto. apply r6_wf; discriminate. intros l E; inversion E; auto.
Qed.

(* ================= C41 ================= *)
(** After any history of calls, raising or not, forward kinematics and Jacobian are the same
    functions. *)
Theorem C41_kinematics : forall argsort r calls, wf_robot r ->
  let r' := fold_left (after_call argsort) calls r in
  (forall theta b, fwdkin r' theta b = fwdkin r theta b) /\ (forall theta b, robotjacobian r' theta b = robotjacobian r theta b).
Proof. intros argsort r calls W. exact (proj1 (after_calls argsort r calls W)). Qed.
(** Only P is touched, and a second call leaves it as the first left it. *)
Theorem C41_second : forall argsort r c c', after_call argsort (after_call argsort r c) c' = after_call argsort r c.
Proof. exact after_second. Qed.
Theorem C41_only_P : forall argsort r c, exists P, after_call argsort r c = set_P r P.
Proof. intros argsort r c. rewrite after_call_eq. eauto. Qed.
(** The change is real: the array differs after a call. *)
Example C41_ex : wf_robot r_lim /\ rP (after_call insertion_argsort r_lim (identity_transform, None)) <> rP r_lim.
Proof.
  split; [apply r_lim_wf|]. rewrite after_call_eq. unfold r_lim. simpl.
  assert (E : correct_P [ez; ey; ey; ex; ey; ex] [ez; ex; V3 0 0 2; V3 (1/2) 0 0; V3 (1/2) 0 0; ex; vzero] =
    ([ez; ex; V3 0 0 2; vadd (V3 (1/2) 0 0) (V3 (1/2) 0 0); vzero; vzero; vadd vzero ex], Ok tt)).
  { unfold correct_P, correct4, index. cbn [nth_error].
    assert (Z1 : vzerob (V3 (1/2) 0 0) = false). { unfold vzerob. simpl. rewrite (proj2 (Reqb_false (1/2) 0)) by lra. reflexivity. }
    assert (Z2 : vzerob (vsub (V3 (1/2) 0 0) (vscale (dot (V3 (1/2) 0 0) ex) ex)) = true).
    { apply vzerob_iff. unfold vsub, vscale, dot, ex, vzero. simpl. f_equal; lra. }
    rewrite Z1, Z2. unfold correct5, index. simpl.
    assert (Z3 : vzerob ex = false). { unfold vzerob, ex. simpl. rewrite (proj2 (Reqb_false (1) 0)) by lra. reflexivity. }
    assert (Z4 : vzerob (vsub ex (vscale (dot ex ex) ex)) = true).
    { apply vzerob_iff. unfold vsub, vscale, dot, ex, vzero. simpl. f_equal; lra. }
    rewrite Z3, Z4. reflexivity. }
  rewrite E. simpl. intros F. inversion F. lra.
Qed.
(** It also stays when the call fails its second assertion. *)
Example C41_ex_raising : let r := r6 ez ex (V3 0 0 2) (V3 (1/2) 0 0) (V3 (1/2) 0 0) ey vzero None None in
  wf_robot r /\ snd (robot6_sphericalwrist_invkin insertion_argsort r identity_transform None) = Err AssertionError /\
  rP (after_call insertion_argsort r (identity_transform, None)) <> rP r.
Proof.
  intros r. split; [apply r6_wf; discriminate|].
  assert (E : correct_P [ez; ey; ey; ex; ey; ex] [ez; ex; V3 0 0 2; V3 (1/2) 0 0; V3 (1/2) 0 0; ey; vzero] =
    ([ez; ex; V3 0 0 2; vadd (V3 (1/2) 0 0) (V3 (1/2) 0 0); vzero; ey; vzero], Err AssertionError)).
  { unfold correct_P, correct4, index. cbn [nth_error].
    assert (Z1 : vzerob (V3 (1/2) 0 0) = false). { unfold vzerob. simpl. rewrite (proj2 (Reqb_false (1/2) 0)) by lra. reflexivity. }
    assert (Z2 : vzerob (vsub (V3 (1/2) 0 0) (vscale (dot (V3 (1/2) 0 0) ex) ex)) = true).
    { apply vzerob_iff. unfold vsub, vscale, dot, ex, vzero. simpl. f_equal; lra. }
    rewrite Z1, Z2. unfold correct5, index. simpl.
    assert (Z3 : vzerob ey = false). { apply vzerob_false. intros F. inversion F. lra. }
    assert (Z4 : vzerob (vsub ey (vscale (dot ey ex) ex)) = false).
    { apply vzerob_false. unfold vsub, vscale, dot, ey, ex, vzero. simpl. intros F. inversion F. lra. }
    rewrite Z3, Z4. reflexivity. }
  split.
  - unfold robot6_sphericalwrist_invkin. change (rH r) with [ez; ey; ey; ex; ey; ex]. change (rP r) with [ez; ex; V3 0 0 2; V3 (1/2) 0 0; V3 (1/2) 0 0; ey; vzero]. rewrite E. reflexivity.
  - rewrite after_call_eq. change (rH r) with [ez; ey; ey; ex; ey; ex]. change (rP r) with [ez; ex; V3 0 0 2; V3 (1/2) 0 0; V3 (1/2) 0 0; ey; vzero]. rewrite E. simpl. intros F. inversion F. lra.
Qed.
Print Assumptions C34_closest. Print Assumptions C34_found. Print Assumptions C35_sorted. Print Assumptions C35_complete_refuted. Print Assumptions C41_kinematics.
