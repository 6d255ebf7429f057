(** Facts about ur_invkin. *)
From Coq Require Import Reals ZArith List Bool Lia Lra Psatz Sorting.Permutation Sorting.Sorted.
From Verif Require Import LinAlg RealAux Py FactsReal FactsLinAlg ModelRot SpecRot FactsRot
  ModelTransform ModelRobot ModelKin SpecKin FactsKin FactsJac ModelSub SpecSub FactsSub ModelInvkin SpecInvkin FactsInvkin FactsIkGeo FactsRobot6 FactsIkErr.
Import ListNotations.
Open Scope R_scope.

(** What a vector found by the nested loops went through. *)
Definition path_ur (z : normalizer) (h0 h1 h2 h3 h4 h5 P0 P1 P2 P3 P4 : vec3) (A : mat3) (p04 : vec3) (q1 q2 q3 q4 q5 q6 : R) : Prop :=
  exists t1 Q q24 Q3 t3 t2 t6,
  let R01 := rot h0 q1 in
  let R04 := mmul R01 (rot h3 q24) in
  let p23 := vsub (vsub (vsub p04 P0) (mvec R01 P1)) (mvec R04 P4) in
  (In (Fin t1) (subproblem4 ey p04 (vneg h0) (dot ey (vadd (vadd (vadd P1 P2) P3) P4))) /\ normalize z 0 t1 = Ok (Some q1)) /\
  (subproblem2 h5 (mvec (mmul (mT R01) A) h5) h3 h4 = Ok Q /\ In (q24, q5) Q) /\
  (subproblem3 P3 P2 h2 (norm p23) = Ok Q3 /\ In t3 Q3 /\ normalize z 2 t3 = Ok (Some q3)) /\
  (subproblem1 (vadd P2 (mvec (rot h2 q3) P3)) (mvec (mT R01) p23) h1 = Ok t2 /\ normalize z 1 t2 = Ok (Some q2)) /\
  normalize z 3 (q24 - q2 - q3) = Ok (Some q4) /\
  (subproblem1 h4 (mvec (mmul (mT (mmul R04 (rot h4 q5))) A) h4) h5 = Ok t6 /\ normalize z 5 t6 = Ok (Some q6)).

Lemma isclose_refl a : isclose (1/100000) (1/100000000) a a = true.
Proof. apply isclose_iff. unfold np_close. rewrite Rminus_diag_eq, Rabs_R0 by auto. pose proof (Rabs_pos a). lra. Qed.
Lemma cols_close_refl A : cols_close A A = Ok true.
Proof.
  unfold cols_close. rewrite Nat.eqb_refl. f_equal. induction A as [|v A IH]; simpl; auto. rewrite IH.
  unfold col_close; simpl. rewrite !isclose_refl. reflexivity.
Qed.
Lemma ur_shape h : h = ey \/ h = vneg ey -> exists b, (let* a := cols_close ur_minus [ez; h; h; h; vneg ez; h] in
   if a then Ok true else cols_close ur_plus [ez; h; h; h; vneg ez; h]) = Ok b /\ b = true.
Proof.
  intros H. exists true. split; auto.
  assert (E : exists a, cols_close ur_minus [ez; h; h; h; vneg ez; h] = Ok a) by (unfold cols_close; simpl; eauto).
  destruct E as [a E]. rewrite E. simpl. destruct a; auto.
  destruct H as [->| ->].
  - apply (cols_close_refl ur_plus).
  - pose proof (cols_close_refl ur_minus) as F. unfold ur_minus in *. rewrite F in E. discriminate.
Qed.

Section Ur.
Context (argsort : list (flt R) -> list nat) (SP : argsort_spec argsort).
Context (r : robot) (h p0 p1 p2 p3 p4 p5 p6 : vec3) (U : ur r h p0 p1 p2 p3 p4 p5 p6) (pose : transform) (last : option (list R)).
Let A := tR (unapply_aux r pose).
Let p04 := vsub (tp (unapply_aux r pose)) (mvec A (vadd p6 p5)).
Let z := normalize_joints r last false.
Lemma ur_unfold : ur_invkin argsort r pose last =
  let* N1 := call_flt argsort z 0 (subproblem4 ey p04 (vneg ez) (dot ey (vadd (vadd (vadd p1 p2) p3) p4))) in
  let* sols := flat_map_out (ur_arm argsort z (rH r) (rP r) A p04) N1 in
  sort_solutions argsort last sols.
Proof.
  unfold ur_invkin. cbv zeta. destruct (ur_shape h (ur_h _ _ _ _ _ _ _ _ _ U)) as (b & E & ->).
  rewrite (ur_H _ _ _ _ _ _ _ _ _ U), (ur_P _ _ _ _ _ _ _ _ _ U).
  destruct (cols_close ur_minus [ez; h; h; h; vneg ez; h]) as [a|]; [|discriminate]. cbn [bind] in *. rewrite E.
  unfold index. cbn [bind nth_error assert_]. reflexivity.
Qed.
Definition ur_sols : out (list (list R)) :=
  let* N1 := call_flt argsort z 0 (subproblem4 ey p04 (vneg ez) (dot ey (vadd (vadd (vadd p1 p2) p3) p4))) in
  flat_map_out (ur_arm argsort z (rH r) (rP r) A p04) N1.
Lemma ur_invkin_sols : ur_invkin argsort r pose last = let* sols := ur_sols in sort_solutions argsort last sols.
Proof. rewrite ur_unfold. unfold ur_sols. destruct (call_flt argsort z 0 _); reflexivity. Qed.
Lemma ur_sols_path sols q : ur_sols = Ok sols -> In q sols ->
  exists q1 q2 q3 q4 q5 q6, q = [q1; q2; q3; q4; q5; q6] /\ path_ur z ez h h h (vneg ez) h p0 p1 p2 p3 p4 A p04 q1 q2 q3 q4 q5 q6.
Proof.
  unfold ur_sols. intros ES I. destruct (call_flt argsort z 0 _) as [N1|] eqn:E1; [|discriminate]. cbn [bind] in ES.
  apply (flat_map_out_in _ _ _ ES) in I as (fq1 & ys & I1 & F1 & Iq). clear ES.
  destruct (call_flt_in argsort _ _ _ _ E1) as [C1 _]. apply C1 in I1 as (ft1 & I1 & M1). clear C1 E1.
  destruct fq1 as [q1|]; [|discriminate]. apply normalize_flt_some in M1 as (t1 & -> & M1).
  rewrite (ur_H _ _ _ _ _ _ _ _ _ U), (ur_P _ _ _ _ _ _ _ _ _ U) in F1.
  unfold ur_arm, index in F1. cbn [nth_error bind] in F1. cbv zeta in F1.
  destruct (subproblem2 h _ h (vneg ez)) as [Q|] eqn:E2; [|discriminate]. cbn [bind] in F1.
  apply (flat_map_out_in _ _ _ F1) in Iq as ([q24 q5] & ys2 & I2 & F2 & Iq). clear F1.
  unfold ur_inner, index in F2. cbn [nth_error bind] in F2. cbv zeta in F2.
  set (p23 := vsub (vsub (vsub p04 p0) _) _) in *.
  destruct (subproblem3 p3 p2 h (norm p23)) as [Q3|] eqn:E3; [|discriminate]. cbn [bind] in F2.
  destruct (call1 argsort z 2 Q3) as [N3|] eqn:C3; [|discriminate]. cbn [bind] in F2.
  apply (flat_map_out_in _ _ _ F2) in Iq as (q3 & ys3 & I3 & F3 & Iq). clear F2.
  destruct (call1_in argsort _ _ _ _ C3) as [D3 _]. apply D3 in I3 as (t3 & I3 & M3). clear D3 C3.
  destruct (subproblem1 (vadd p2 _) _ h) as [t2|] eqn:E4; [|discriminate]. cbn [bind] in F3.
  destruct (normalize z 1 t2) as [[q2|]|] eqn:M2; [| |discriminate]; cbn [bind] in F3; [|inversion F3; subst; destruct Iq].
  destruct (normalize z 3 (q24 - q2 - q3)) as [[q4|]|] eqn:M4; [| |discriminate]; cbn [bind] in F3; [|inversion F3; subst; destruct Iq].
  destruct (subproblem1 (vneg ez) _ h) as [t6|] eqn:E6; [|discriminate]. cbn [bind] in F3.
  destruct (normalize z 5 t6) as [[q6|]|] eqn:M6; [| |discriminate]; cbn [bind] in F3; inversion F3; subst ys3; [|destruct Iq].
  destruct Iq as [<-|[]]. exists q1, q2, q3, q4, q5, q6. split; auto.
  exists t1, Q, q24, Q3, t3, t2, t6. cbv zeta. fold p23. auto 20.
Qed.
Lemma ur_sols_in sols q1 q2 q3 q4 q5 q6 : near_last last 0 q1 -> near_last last 2 q3 -> ur_sols = Ok sols ->
  path_ur z ez h h h (vneg ez) h p0 p1 p2 p3 p4 A p04 q1 q2 q3 q4 q5 q6 -> In [q1; q2; q3; q4; q5; q6] sols.
Proof.
  intros L1 L3 E (t1 & Q & q24 & Q3 & t3 & t2 & t6 & PT). cbv zeta in PT.
  destruct PT as ((I1 & M1) & (E2 & I2) & (E3 & I3 & M3) & (E4 & M2) & M4 & (E6 & M6)).
  revert E. unfold ur_sols. destruct (call_flt argsort z 0 _) as [N1|] eqn:E1; [|discriminate]. cbn [bind]. intros ES.
  apply (flat_map_out_in _ _ _ ES).
  pose proof (call_flt_keep argsort SP _ _ _ _ _ _ E1 I1 M1 L1) as C1.
  destruct (flat_map_out_ok _ _ _ ES _ C1) as [ys F1]. exists (Fin q1), ys. split; auto. split; auto.
  revert F1. rewrite (ur_H _ _ _ _ _ _ _ _ _ U), (ur_P _ _ _ _ _ _ _ _ _ U). unfold ur_arm, index. cbn [nth_error bind]. cbv zeta. rewrite E2. cbn [bind]. intros F1.
  apply (flat_map_out_in _ _ _ F1). destruct (flat_map_out_ok _ _ _ F1 _ I2) as [ys2 F2]. exists (q24, q5), ys2. split; auto. split; auto.
  revert F2. unfold ur_inner, index. cbn [nth_error bind]. cbv zeta. rewrite E3. cbn [bind].
  destruct (call1 argsort z 2 Q3) as [N3|] eqn:C3; [|discriminate]. cbn [bind]. intros F2.
  apply (flat_map_out_in _ _ _ F2).
  pose proof (call1_keep argsort SP _ _ _ _ _ _ C3 I3 M3 L3) as D3.
  destruct (flat_map_out_ok _ _ _ F2 _ D3) as [ys3 F3]. exists q3, ys3. split; auto. split; auto.
  revert F3. rewrite E4. cbn [bind]. rewrite M2. cbn [bind]. rewrite M4. cbn [bind]. rewrite E6. cbn [bind]. rewrite M6. cbn [bind].
  intros E; inversion E. simpl; auto.
Qed.
Lemma ur_path res q : ur_invkin argsort r pose last = Ok res -> In q res ->
  exists q1 q2 q3 q4 q5 q6, q = [q1; q2; q3; q4; q5; q6] /\ path_ur z ez h h h (vneg ez) h p0 p1 p2 p3 p4 A p04 q1 q2 q3 q4 q5 q6.
Proof.
  rewrite ur_invkin_sols. destruct ur_sols as [sols|] eqn:ES; [|discriminate]. cbn [bind]. intros E I.
  rewrite (sort_in argsort SP last sols res E q) in I. eapply ur_sols_path; eauto.
Qed.
Lemma ur_path_in res q1 q2 q3 q4 q5 q6 : near_last last 0 q1 -> near_last last 2 q3 -> ur_invkin argsort r pose last = Ok res ->
  path_ur z ez h h h (vneg ez) h p0 p1 p2 p3 p4 A p04 q1 q2 q3 q4 q5 q6 -> In [q1; q2; q3; q4; q5; q6] res.
Proof.
  intros L1 L3. rewrite ur_invkin_sols. destruct ur_sols as [sols|] eqn:ES; [|discriminate]. cbn [bind]. intros E PT.
  rewrite (sort_in argsort SP last sols res E). eapply ur_sols_in; eauto.
Qed.
Lemma ur_path_sorts q1 q2 q3 q4 q5 q6 : (forall l, last = Some l -> length l = 6%nat) -> near_last last 0 q1 -> near_last last 2 q3 ->
  path_ur z ez h h h (vneg ez) h p0 p1 p2 p3 p4 A p04 q1 q2 q3 q4 q5 q6 ->
  (exists res, ur_invkin argsort r pose last = Ok res) \/ (exists e, ur_sols = Err e /\ ur_invkin argsort r pose last = Err e).
Proof.
  intros LL L1 L3 PT. rewrite ur_invkin_sols. destruct ur_sols as [sols|e] eqn:ES; [left|right; eauto]. cbn [bind].
  pose proof (ur_sols_in sols _ _ _ _ _ _ L1 L3 ES PT) as I.
  apply (sort_some argsort SP last sols 6 _ LL I). intros s Is.
  destruct (ur_sols_path sols s ES Is) as (a1 & a2 & a3 & a4 & a5 & a6 & -> & _). reflexivity.
Qed.
(** only assertions fail *)
Lemma ur_sols_err e : (forall l, last = Some l -> length l = 6%nat) -> ur_sols = Err e -> e = AssertionError.
Proof.
  intros LL. assert (ZL : lims_len z 6).
  { apply normalizer_len; auto. - apply (ur_wf _ _ _ _ _ _ _ _ _ U). - rewrite (ur_types _ _ _ _ _ _ _ _ _ U). reflexivity. }
  unfold ur_sols. intros E.
  match type of E with bind ?c _ = _ => assert (X : exists N, c = Ok N) end.
  { unfold call_flt. apply candidates_total; auto. intros x _. apply (normalize_flt_total z 6); auto; lia. }
  destruct X as [N1 X]. rewrite X in E. cbn [bind] in E. clear X.
  rewrite (ur_H _ _ _ _ _ _ _ _ _ U), (ur_P _ _ _ _ _ _ _ _ _ U) in E.
  apply flat_map_out_err in E as ([q1|] & _ & E); [|simpl in E; congruence].
  unfold ur_arm, index in E. cbn [nth_error bind] in E. cbv zeta in E.
  destruct (subproblem2 h _ h (vneg ez)) as [Q|e'] eqn:E2; cbn [bind] in E; [|inversion E; subst; eapply subproblem2_err; eauto].
  apply flat_map_out_err in E as ([q24 q5] & _ & E). unfold ur_inner, index in E. cbn [nth_error bind] in E. cbv zeta in E.
  destruct (subproblem3 p3 p2 h _) as [Q3|e'] eqn:E3; cbn [bind] in E; [|inversion E; subst; eapply subproblem3_err; eauto].
  match type of E with bind ?c _ = _ => assert (X : exists N, c = Ok N) end.
  { unfold call1. apply candidates_total; auto. intros x _. apply (normalize_total z 6); auto; lia. }
  destruct X as [N3 X]. rewrite X in E. cbn [bind] in E. clear X.
  apply flat_map_out_err in E as (q3 & _ & E).
  match type of E with bind (subproblem1 ?a ?b ?c) _ = _ => destruct (subproblem1 a b c) as [t2|e'] eqn:E4 end; cbn [bind] in E; [|inversion E; subst; eapply subproblem1_err; eauto].
  destruct (normalize_total z 6 1 t2 ZL) as [[q2|] M2]; [lia| |]; rewrite M2 in E; cbn [bind] in E; [|discriminate].
  destruct (normalize_total z 6 3 (q24 - q2 - q3) ZL) as [[q4|] M4]; [lia| |]; rewrite M4 in E; cbn [bind] in E; [|discriminate].
  match type of E with bind (subproblem1 ?a ?b ?c) _ = _ => destruct (subproblem1 a b c) as [t6|e'] eqn:E6 end; cbn [bind] in E; [|inversion E; subst; eapply subproblem1_err; eauto].
  destruct (normalize_total z 6 5 t6 ZL) as [[q6|] M6]; [lia| |]; rewrite M6 in E; cbn [bind] in E; discriminate.
Qed.
End Ur.

Lemma ez_unit' : unit3 ez. Proof. unfold unit3, norm2, dot, ez; simpl; ring. Qed.
Lemma h_ez h : h = ey \/ h = vneg ey -> dot h (vneg ez) = 0.
Proof. intros [->| ->]; unfold dot, vneg, ey, ez; simpl; ring. Qed.
Lemma ez_p0y p0 : on_axis ez p0 -> vy p0 = 0.
Proof. intros O. unfold on_axis, perp in O. apply (f_equal vy) in O. destruct p0. unfold vsub, vscale, dot, ez in O; simpl in *. lra. Qed.

(** The chain in terms of the turn q2+q3+q4 about the common direction *)
Lemma ur_point r h p0 p1 p2 p3 p4 p5 p6 q1 q2 q3 q4 q5 q6 x : ur r h p0 p1 p2 p3 p4 p5 p6 ->
  robot_point r [q1; q2; q3; q4; q5; q6] x =
  act_opt (rbase r) (vadd p0 (mvec (rot ez q1) (vadd p1 (vadd (mvec (rot h q2) (vadd p2 (mvec (rot h q3) p3)))
    (mvec (rot h (q2 + q3 + q4)) (vadd p4 (mvec (rot (vneg ez) q5) (mvec (rot h q6) (vadd (vadd p6 p5) (point6 r x)))))))))).
Proof.
  intros U. unfold robot_point. fold (point6 r x).
  rewrite (ur_types _ _ _ _ _ _ _ _ _ U), (ur_H _ _ _ _ _ _ _ _ _ U), (ur_P _ _ _ _ _ _ _ _ _ U).
  pose proof (ey_line _ (ur_h _ _ _ _ _ _ _ _ _ U)) as Uh. pose proof ez_unit' as Uz.
  cbn [chain hd tl joint_motion]. rewrite <- !rot_rotate by auto using unit_neg.
  pose proof (on_axis_rot h q6 p5 (ur_p5 _ _ _ _ _ _ _ _ _ U)) as A5.
  do 4 f_equal. rewrite <- !rot_add, !mvec_mmul by auto. rewrite (mvec_vadd (rot h q2) p2), (mvec_vadd (rot h q2) p2), (mvec_vadd (rot h q3) p3), (mvec_vadd (rot h q2)).
  replace (mvec (rot h q6) (vadd (vadd p6 p5) (point6 r x))) with (vadd p5 (mvec (rot h q6) (vadd p6 (point6 r x)))).
  2:{ rewrite !mvec_vadd, A5. generalize (mvec (rot h q6) p6), (mvec (rot h q6) (point6 r x)). clear. intros; la_ring. }
  generalize (mvec (rot h q2) (mvec (rot h q3) (mvec (rot h q4) (vadd p4 (mvec (rot (vneg ez) q5) (vadd p5 (mvec (rot h q6) (vadd p6 (point6 r x))))))))).
  generalize (mvec (rot h q2) p2), (mvec (rot h q2) (mvec (rot h q3) p3)). clear. intros; la_ring.
Qed.

Lemma path_ur_sound z h P0 P1 P2 P3 P4 A p04 q1 q2 q3 q4 q5 q6 : h = ey \/ h = vneg ey -> on_axis ez P0 -> is_SO3 A ->
  path_ur z ez h h h (vneg ez) h P0 P1 P2 P3 P4 A p04 q1 q2 q3 q4 q5 q6 ->
  let got u := vadd P0 (mvec (rot ez q1) (vadd P1 (vadd (mvec (rot h q2) (vadd P2 (mvec (rot h q3) P3)))
    (mvec (rot h (q2 + q3 + q4)) (vadd P4 (mvec (rot (vneg ez) q5) (mvec (rot h q6) u))))))) in
  (forall u, norm (vsub (got u) (vadd p04 (mvec A u))) <= Rmax 1 (norm P3) * sqrt_eps + 7 * sqrt_eps * norm u) /\
  (sqrt_eps <= norm (vsub (dir (perp ey P3)) (dir (perp ey P2))) ->
   ~ ang_eq q2 0 -> ~ ang_eq (q2 + q3 + q4) 0 -> ~ ang_eq q5 0 -> ~ ang_eq q6 0 -> forall u, got u = vadd p04 (mvec A u)).
Proof.
  intros Lh O0 SA (t1 & Q & q24 & Q3 & t3 & t2 & t6 & PT) got. cbv zeta in PT.
  destruct PT as ((I1 & M1) & (E2 & I2) & (E3 & I3 & M3) & (E4 & M2) & M4 & (E6 & M6)).
  apply normalize_ang in M1, M2, M3, M4, M6.
  pose proof (ey_line _ Lh) as Uh. pose proof ez_unit' as Uz. pose proof (unit_neg _ Uz) as Uz'. pose proof (h_ez h Lh) as Phz.
  assert (K24 : ang_eq (q2 + q3 + q4) q24).
  { destruct M4 as [n E]. exists n. lra. }
  set (R01 := rot ez q1) in *. assert (S01 : is_SO3 R01) by (apply rot_SO3; auto).
  set (w := mvec (mT R01) (vsub (vsub (vsub p04 P0) (mvec R01 P1)) (mvec (mmul R01 (rot h q24)) P4))) in *.
  assert (Nw : norm (vsub (vsub (vsub p04 P0) (mvec R01 P1)) (mvec (mmul R01 (rot h q24)) P4)) = norm w).
  { unfold w. rewrite SO3_norm by auto using SO3_T. reflexivity. }
  rewrite Nw in E3.
  assert (OR : mvec R01 P0 = P0) by (apply on_axis_rot; auto).
  assert (Ew : w = vsub (vsub (vsub (mvec (mT R01) p04) P0) P1) (mvec (rot h q24) P4)).
  { unfold w. rewrite !mvec_vsub, (mvec_mmul R01 (rot h q24)), !SO3_T_vec by auto. rewrite <- OR at 1. rewrite SO3_T_vec by auto. reflexivity. }
  assert (Sy : forall s v, dot ey (mvec (rot h s) v) = dot ey v).
  { intros s v. apply same_line_dot; auto. apply ey_line; auto. }
  assert (D : dot ey w = dot ey (vadd P2 P3)).
  { apply subproblem4_in in I1. rewrite rot_neg, <- rot_T in I1. rewrite Ew. rewrite !dot_vsub_r, Sy, (vy_dot P0), (ez_p0y P0 O0).
    unfold R01. rewrite (rot_ang_eq ez q1 t1 M1), I1, !dot_vadd_r. ring. }
  assert (D1 : dot h w = dot h (vadd P2 P3)) by (destruct Lh as [->| ->]; rewrite ?dot_vneg_l, D; auto).
  assert (SL : same_line h h) by (left; auto).
  destruct (arm_sound h h P2 P3 w Q3 t3 q3 t2 q2 Uh SL D1 E3 I3 M3 E4 M2) as [AB _].
  pose proof (arm_exact h h P2 P3 w Q3 t3 q3 t2 q2 Uh SL D1 E3 I3 M3 E4 M2) as AE.
  set (R16 := mmul (mT R01) A) in *. assert (S16 : is_SO3 R16) by (unfold R16; auto using SO3_mmul, SO3_T).
  assert (G : eps <= cone_gap h (mvec R16 h) h (vneg ez)).
  { rewrite wrist_gap by (auto; rewrite dot_comm; auto). destruct (Rlt_le_dec (1 - dot (mvec R16 h) h * dot (mvec R16 h) h) eps) as [L|L]; auto.
    rewrite (wrist_singular h (vneg ez) h (mvec R16 h)) in E2; auto using SO3_unit. discriminate. }
  assert (E6' : subproblem1 (vneg ez) (mvec (mmul (mT (mmul (rot h q24) (rot (vneg ez) q5))) R16) (vneg ez)) h = Ok t6).
  { unfold R16. rewrite <- mmul_assoc, <- mT_mmul, <- (mmul_assoc R01). exact E6. }
  destruct (wrist_sound h (vneg ez) h R16 Q q24 q5 q24 q5 t6 q6 Uh Uz' Uh S16) as [WB WE]; auto using ang_eq_refl.
  { rewrite dot_comm; auto. } { rewrite Phz. pose proof eps_small. lra. }
  set (a := mvec (rot h q2) (vadd P2 (mvec (rot h q3) P3))) in *.
  assert (K : forall u, vsub (got u) (vadd p04 (mvec A u)) = vadd (mvec R01 (vsub a w))
     (mvec R01 (vsub (mvec (rot h q24) (mvec (rot (vneg ez) q5) (mvec (rot h q6) u))) (mvec R16 u)))).
  { intros u. unfold got. fold a. rewrite (rot_ang_eq h _ _ K24). generalize (mvec (rot (vneg ez) q5) (mvec (rot h q6) u)). intros v.
    rewrite Ew, !mvec_vsub, !mvec_vadd. rewrite (SO3_vec_T R01) by auto. rewrite OR.
    replace (mvec R01 (mvec R16 u)) with (mvec A u) by (unfold R16; rewrite (mvec_mmul (mT R01) A u), (SO3_vec_T R01) by auto; reflexivity).
    generalize (mvec R01 a), (mvec R01 (mvec (rot h q24) v)), (mvec R01 (mvec (rot h q24) P4)), (mvec R01 P1), (mvec A u). clear. intros; la_ring. }
  split.
  - intros u. rewrite K. eapply Rle_trans; [apply norm_triangle|]. rewrite !SO3_norm by auto. apply Rplus_le_compat; auto.
  - intros Qd N2 N4 N5 N6 u. apply vsub_0. rewrite K, WE; auto.
    + rewrite AE; auto.
      * rewrite !vsub_self, !mvec_vzero. apply vadd_0_l.
      * destruct Lh as [->| ->]; auto. rewrite !perp_neg. auto.
    + intros B. apply N4. eapply ang_eq_trans; eauto.
Qed.

Lemma ur_sound argsort (SP : argsort_spec argsort) r h p0 p1 p2 p3 p4 p5 p6 (U : ur r h p0 p1 p2 p3 p4 p5 p6) pose last res q :
  wf_aux r -> rigid pose -> ur_invkin argsort r pose last = Ok res -> In q res ->
  exists q1 q2 q3 q4 q5 q6, q = [q1; q2; q3; q4; q5; q6] /\
  (forall x, norm (vsub (robot_point r q x) (act pose x)) <=
     (Rmax 1 (norm p3) + 7 * norm (vadd (vadd p6 p5) (point6 r x))) * sqrt_eps) /\
  (sqrt_eps <= norm (vsub (dir (perp ey p3)) (dir (perp ey p2))) ->
   ~ ang_eq q2 0 -> ~ ang_eq (q2 + q3 + q4) 0 -> ~ ang_eq q5 0 -> ~ ang_eq q6 0 -> reaches r q pose) /\
  (allowed r 0 q1 /\ allowed r 1 q2 /\ allowed r 2 q3 /\ allowed r 3 q4 /\ allowed r 5 q6).
Proof.
  intros W RG E I. destruct (ur_path argsort SP r _ _ _ _ _ _ _ _ U pose last res q E I) as (q1 & q2 & q3 & q4 & q5 & q6 & -> & PT).
  exists q1, q2, q3, q4, q5, q6. split; auto.
  destruct (path_ur_sound _ h _ _ _ _ _ _ _ q1 q2 q3 q4 q5 q6 (ur_h _ _ _ _ _ _ _ _ _ U) (ur_p0 _ _ _ _ _ _ _ _ _ U) (rigid_unapply_aux r pose W RG) PT) as [B X].
  assert (WT : forall x, vadd (mvec (tR (unapply_aux r pose)) (point6 r x)) (tp (unapply_aux r pose)) =
     vadd (vsub (tp (unapply_aux r pose)) (mvec (tR (unapply_aux r pose)) (vadd p6 p5))) (mvec (tR (unapply_aux r pose)) (vadd (vadd p6 p5) (point6 r x)))).
  { intros x. rewrite (mvec_vadd _ (vadd p6 p5) (point6 r x)).
    generalize (mvec (tR (unapply_aux r pose)) (vadd p6 p5)), (mvec (tR (unapply_aux r pose)) (point6 r x)), (tp (unapply_aux r pose)).
    clear. intros; la_ring. }
  split; [|split].
  - intros x. rewrite (ur_point r h p0 p1 p2 p3 p4 p5 p6 _ _ _ _ _ _ x U), (pose_split r pose x W).
    rewrite act_opt_dist by apply (wf_base r W). rewrite WT. eapply Rle_trans; [apply (B (vadd (vadd p6 p5) (point6 r x)))|].
    right. ring.
  - intros Q N2 N4 N5 N6 x. rewrite (ur_point r h p0 p1 p2 p3 p4 p5 p6 _ _ _ _ _ _ x U), (pose_split r pose x W).
    f_equal. rewrite WT. apply X; auto.
  - destruct PT as (t1 & Qs & q24 & Q3 & t3 & t2 & t6 & PT). cbv zeta in PT.
    destruct PT as ((_ & M1) & _ & (_ & _ & M3) & (_ & M2) & M4 & (_ & M6)).
    apply normalize_allowed in M1, M2, M3, M4, M6. tauto.
Qed.
