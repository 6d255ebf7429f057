(** When the closed-form solvers cannot raise, and completeness of ur_invkin. *)
From Coq Require Import Reals ZArith List Bool Lia Lra Psatz Sorting.Permutation Sorting.Sorted.
From Verif Require Import LinAlg RealAux Py FactsReal FactsLinAlg ModelRot SpecRot FactsRot
  ModelTransform ModelRobot ModelKin SpecKin FactsKin FactsJac ModelSub SpecSub FactsSub ModelInvkin SpecInvkin FactsInvkin FactsIkGeo FactsRobot6 FactsIkErr FactsUr.
Import ListNotations.
Open Scope R_scope.

Lemma wrist_ok h3 h4 h5 A : unit3 h3 -> unit3 h4 -> same_line h3 h5 -> dot h3 h4 = 0 -> is_SO3 A ->
  eps <= 1 - dot (mvec A h5) h3 * dot (mvec A h5) h3 ->
  exists Q, subproblem2 h5 (mvec A h5) h3 h4 = Ok Q /\
  forall t4 t5 q4 q5, In (t4, t5) Q -> ang_eq q4 t4 -> ang_eq q5 t5 ->
  exists t6, subproblem1 h4 (mvec (mmul (mT (mmul (rot h3 q4) (rot h4 q5))) A) h4) h5 = Ok t6.
Proof.
  intros U3 U4 SL P34 SA G0. pose proof (same_line_unit _ _ SL U3) as U5. pose proof eps_pos as EP. pose proof eps_small as ES.
  pose proof sqrt_eps_pos as SE. pose proof sqrt_eps_sq as SQ.
  assert (P : dot h4 h5 = 0). { destruct SL as [->| ->]; rewrite ?dot_vneg_r, dot_comm, P34; ring. }
  assert (G : eps <= cone_gap h5 (mvec A h5) h3 h4) by (rewrite wrist_gap; auto).
  assert (NP : dot h5 h5 = dot (mvec A h5) (mvec A h5)) by (rewrite SO3_dot; auto).
  assert (HK' : eps <= Rabs (1 - dot h3 h4 * dot h3 h4)) by (rewrite P34, Rabs_right; lra).
  destruct (subproblem2_two_ok h5 (mvec A h5) h3 h4 U3 U4 HK' G NP) as (a1 & b1 & a2 & b2 & El & S1 & S2 & S3 & S4).
  eexists. split; [exact El|]. intros t4 t5 q4 q5 I A4 A5.
  assert (Er : norm (vsub (mvec (rot h3 q4) (mvec (rot h4 q5) h5)) (mvec A h5)) < 2 * sqrt_eps).
  { rewrite (rot_ang_eq h3 _ _ A4), (rot_ang_eq h4 _ _ A5).
    destruct I as [I|[I|[]]]; inversion I; subst t4 t5.
    - destruct (subproblem2_two_sound h5 (mvec A h5) h3 h4 _ a1 b1 U3 U4 HK' G NP eq_refl S1 S2) as [X Y]. auto.
    - destruct (subproblem2_two_sound h5 (mvec A h5) h3 h4 (- sp2_g h5 (mvec A h5) h3 h4) a2 b2 U3 U4 HK' G NP ltac:(ring) S3 S4) as [X Y]. auto. }
  set (R35 := mmul (rot h3 q4) (rot h4 q5)) in *.
  assert (S35 : is_SO3 R35) by (unfold R35; auto using SO3_mmul, rot_SO3).
  set (B := mmul (mT R35) A) in *. assert (SB : is_SO3 B) by (unfold B; auto using SO3_mmul, SO3_T).
  assert (BA : forall v, mvec R35 (mvec B v) = mvec A v). { intros v. unfold B. rewrite mvec_mmul, SO3_vec_T; auto. }
  assert (B5 : norm (vsub (mvec B h5) h5) < 2 * sqrt_eps).
  { rewrite <- (SO3_norm R35), mvec_vsub, BA, norm_vsub_sym by auto. unfold R35. rewrite mvec_mmul. auto. }
  destruct (Rlt_le_dec (norm (vsub h4 (mvec B h4))) sqrt_eps) as [L|L].
  { exists 0. apply subproblem1_short; auto. }
  destruct (subproblem1_off h4 (mvec B h4) h5 U5 L) as (t & E & _); eauto.
  - intros Z. apply (f_equal (fun v => dot v v)) in Z. rewrite perp_norm, dot_00, P in Z by auto. unfold unit3, norm2 in U4. lra.
  - intros Z. apply (f_equal (fun v => dot v v)) in Z. rewrite perp_norm, dot_00, SO3_dot in Z by auto. unfold unit3, norm2 in U4. rewrite U4 in Z.
    assert (Hs : dot (mvec B h4) h5 = dot (mvec B h4) (vsub h5 (mvec B h5))) by (rewrite dot_vsub_r, (SO3_dot B h4 h5), P by auto; ring).
    pose proof (cauchy_schwarz (mvec B h4) (vsub h5 (mvec B h5))) as C. rewrite <- Hs, SO3_dot, U4, <- (norm_sq (vsub h5 _)), norm_vsub_sym in C by auto.
    pose proof (norm_nonneg (vsub (mvec B h5) h5)). set (n := norm (vsub (mvec B h5) h5)) in *.
    assert (n * n < 4 * (sqrt_eps * sqrt_eps)) by nra. rewrite SQ in *. lra.
Qed.

Lemma add_zero_neg a b : vadd a b = vzero -> a = vneg b.
Proof.
  destruct a, b. unfold vadd, vneg, vzero. simpl. intros E. inversion E. f_equal; lra.
Qed.
(** |perp (P2 + rot P3)| is at least the difference of the lengths *)
Lemma arm_off h h' P2 P3 t : unit3 h -> same_line h h' -> norm (perp h P2) <> norm (perp h P3) -> perp h (vadd P2 (mvec (rot h' t) P3)) <> vzero.
Proof.
  intros U SL N Z. rewrite perp_vadd in Z.
  assert (E : norm (perp h (mvec (rot h' t) P3)) = norm (perp h P3)).
  { destruct SL as [->| ->]; rewrite ?rot_neg, perp_rot_perp, SO3_norm; auto using rot_SO3. }
  apply N. rewrite (add_zero_neg _ _ Z), norm_vneg. exact E.
Qed.
Lemma perp_same_len h v w : unit3 h -> norm v = norm w -> dot h v = dot h w -> norm (perp h v) = norm (perp h w).
Proof.
  intros U N D. apply norm_eq_of_dot. rewrite !perp_norm, (dot_comm v h), (dot_comm w h), D, <- (norm_sq v), <- (norm_sq w), N by auto. reflexivity.
Qed.
Lemma arm_ok h1 h2 P2 P3 w : unit3 h1 -> same_line h1 h2 -> dot h1 w = dot h1 (vadd P2 P3) ->
  ~ on_axis h1 P2 -> ~ on_axis h1 P3 -> norm (perp h1 P2) <> norm (perp h1 P3) ->
  exists Q3, subproblem3 P3 P2 h2 (norm w) = Ok Q3 /\
  forall t q3, In t Q3 -> exists t2, subproblem1 (vadd P2 (mvec (rot h2 q3) P3)) w h1 = Ok t2.
Proof.
  intros U SL D O2 O3 NE. pose proof (same_line_unit _ _ SL U) as U2.
  assert (PE : forall v, perp h2 v = perp h1 v) by (intros v; destruct SL as [->| ->]; rewrite ?perp_neg; auto).
  assert (X : exists Q3, subproblem3 P3 P2 h2 (norm w) = Ok Q3).
  { destruct (subproblem3_cases h2 P3 P2 (norm w) U2) as [[E _]|(t & t0 & _ & _ & _ & _ & [E|[_ E]])]; rewrite ?PE; auto; rewrite E; eauto. }
  destruct X as [Q3 E3]. exists Q3. split; auto. intros t q3 I.
  destruct (subproblem3_true P3 P2 h2 (norm w) Q3 t U2 (norm_nonneg w) E3 I) as (t' & N & _ & _).
  destruct (Rlt_le_dec (norm (vsub (vadd P2 (mvec (rot h2 q3) P3)) w)) sqrt_eps) as [L|L].
  { exists 0. apply subproblem1_short; auto. }
  destruct (subproblem1_off (vadd P2 (mvec (rot h2 q3) P3)) w h1 U L) as (t2 & E & _); eauto.
  - apply arm_off; auto.
  - intros Z. apply (arm_off h1 h2 P2 P3 t' U SL NE). apply norm_zero. rewrite <- norm_vzero, <- Z.
    apply perp_same_len; auto. rewrite dot_vadd_r, same_line_dot, D, dot_vadd_r; auto.
Qed.

Lemma call1_total argsort (SP : argsort_spec argsort) z n j Q : lims_len z n -> (j < n)%nat -> exists N, call1 argsort z j Q = Ok N.
Proof. intros L J. unfold call1. apply candidates_total; auto. intros x _. apply (normalize_total z n); auto. Qed.
Lemma call2_total argsort (SP : argsort_spec argsort) z n i j Q : lims_len z n -> (i < n)%nat -> (j < n)%nat -> exists N, call2 argsort z (i, j) Q = Ok N.
Proof. intros L I J. unfold call2. apply candidates_total; auto. intros x _. apply (normalize_pair_total z n); auto. Qed.
(** A NaN candidate needs NaN in the list and missing limits *)
Lemma call_flt_nan argsort r last j Q N : call_flt argsort (normalize_joints r last false) j Q = Ok N -> In NaN N -> In NaN Q /\ no_limits r.
Proof.
  intros E I. destruct (call_flt_in argsort _ _ _ _ E) as [C _]. apply C in I as (x & I & X). destruct x as [t|]; simpl in X.
  - destruct (normalize _ j t) as [[y|]|]; simpl in X; discriminate.
  - split; auto. unfold no_limits. destruct (rlower r), (rupper r); auto. simpl in X.
    destruct (index l j); [|discriminate]. destruct (index l0 j); discriminate.
Qed.
Lemma base_no_nan h0 v d : unit3 h0 -> base_solvable h0 v d -> ~ In NaN (subproblem4 ey v (vneg h0) d).
Proof.
  intros U (s & t & A & B). rewrite <- !rot_rotate in * by auto.
  assert (E : forall s, rot h0 (- s) = rot (vneg h0) s) by (intros; rewrite rot_neg; auto). rewrite E in A, B.
  destruct (subproblem4_cases ey v (vneg h0) d) as [[F _]|[[_ F]|[[_ F]|(s1 & s2 & F & _)]]].
  - rewrite F; simpl; tauto.
  - specialize (F s). lra.
  - specialize (F t). lra.
  - rewrite F. simpl. intuition discriminate.
Qed.

Lemma regroup p b c v : vsub (vadd p (vadd b c)) v = vsub c (vsub v (vadd p b)). Proof. la_ring. Qed.
Section Robot6Ok.
Context (argsort : list (flt R) -> list nat) (SP : argsort_spec argsort).
Context (r : robot) (h0 h1 h2 h3 h4 h5 p0 p1 p2 p3 p4 p5 p6 : vec3) (O : opw r h0 h1 h2 h3 h4 h5 p0 p1 p2 p3 p4 p5 p6).
Context (W : wf_aux r) (pose : transform) (RG : rigid pose) (last : option (list R)).
Let P3 := vadd p3 p4.
Let P6 := vadd p6 p5.
Let A := tR (unapply_aux r pose).
Let pT := tp (unapply_aux r pose).
Let v1 := vsub pT (mvec A P6).
Lemma robot6_no_raise : (forall l, last = Some l -> length l = 6%nat) ->
  ~ on_axis ey p2 -> ~ on_axis ey P3 -> norm (perp ey p2) <> norm (perp ey P3) ->
  ~ no_limits r \/ base_solvable h0 v1 (dot ey (vadd (vadd p1 p2) P3)) ->
  (forall q1 q2 q3, norm (vsub (vadd p0 (rotate h0 q1 (vadd p1 (rotate h1 q2 (vadd p2 (rotate h2 q3 P3)))))) v1) <= Rmax 1 (norm P3) * sqrt_eps ->
     let c := dot (mvec A h5) (rotate h0 q1 (rotate h1 q2 (rotate h2 q3 h3))) in eps <= 1 - c * c) ->
  forall e, snd (robot6_sphericalwrist_invkin argsort r pose last) = Err e -> e = ValueError /\ last <> None.
Proof.
  intros LL O2 O3 NE NN WS e E.
  destruct (opw_units r _ _ _ _ _ _ _ _ _ _ _ _ _ O) as (U0 & U1 & U2 & U3 & U4 & U5).
  pose proof (opw_wf _ _ _ _ _ _ _ _ _ _ _ _ _ _ O) as WF. pose proof (opw_types _ _ _ _ _ _ _ _ _ _ _ _ _ _ O) as TY.
  pose proof (opw_h1 _ _ _ _ _ _ _ _ _ _ _ _ _ _ O) as H1. pose proof (opw_h2 _ _ _ _ _ _ _ _ _ _ _ _ _ _ O) as H2.
  pose proof (opw_34 _ _ _ _ _ _ _ _ _ _ _ _ _ _ O) as P34. pose proof (opw_35 _ _ _ _ _ _ _ _ _ _ _ _ _ _ O) as H35.
  pose proof (opw_p0 _ _ _ _ _ _ _ _ _ _ _ _ _ _ O) as O0. pose proof (opw_p0y _ _ _ _ _ _ _ _ _ _ _ _ _ _ O) as Y0.
  pose proof (opw_H _ _ _ _ _ _ _ _ _ _ _ _ _ _ O) as HH.
  pose proof (rigid_unapply_aux r pose W RG) as SA. fold A in SA. unfold rigid in SA.
  assert (SL35 : same_line h3 h5) by exact H35.
  pose proof (ey_same _ _ H1 H2) as SL.
  set (z := normalize_joints r last false).
  assert (ZL : lims_len z 6) by (apply normalizer_len; auto; rewrite TY; auto).
  rewrite (robot6_unfold argsort r _ _ _ _ _ _ _ _ _ _ _ _ _ O pose last) in E.
  unfold robot6_solve in E. rewrite HH in E. unfold index in E. cbn [nth_error bind] in E. cbv zeta in E. fold z A pT P3 P6 v1 in E.
  destruct (call_flt argsort z 0 _) as [N1|e1] eqn:E1; cbn [bind] in E.
  2:{ match type of E1 with call_flt _ _ _ ?q = _ => destruct (call_flt_total argsort SP r last WF ltac:(rewrite TY; auto) LL 0 q) as [N F]; [lia|] end. fold z in F. congruence. }
  assert (AR : forall x, In x N1 -> exists ys, robot6_arm argsort z [h0; h1; h2; h3; h4; h5] [p0; p1; p2; P3; vzero; vzero; P6] A pT x = Ok ys).
  2:{ destruct (flat_map_out_total (robot6_arm argsort z [h0; h1; h2; h3; h4; h5] [p0; p1; p2; P3; vzero; vzero; P6] A pT) N1 AR) as [sols ES].
      rewrite ES in E. cbn [bind] in E. apply sort_err in E; auto. }
  clear E. intros [q1|] I.
  2:{ exfalso. destruct (call_flt_nan argsort r last 0 _ _ E1 I) as [X Y]. destruct NN as [NN|NN]; [auto|].
      revert X. apply base_no_nan; auto. }
  destruct (call_flt_in argsort _ _ _ _ E1) as [C1 _]. apply C1 in I as (ft1 & I1 & M1). clear C1.
  apply normalize_flt_some in M1 as (t1 & -> & M1). apply normalize_ang in M1. apply subproblem4_in in I1.
  unfold robot6_arm, index. cbn [nth_error bind]. cbv zeta. fold v1.
  set (w := vsub (mvec (mT (rot h0 q1)) v1) (vadd p0 p1)).
  assert (D : dot h1 w = dot h1 (vadd p2 P3)).
  { rewrite rot_neg, <- rot_T, <- (rot_ang_eq h0 q1 t1 M1) in I1.
    assert (Dy : dot ey w = dot ey (vadd p2 P3)) by (unfold w; rewrite dot_vsub_r, I1, !dot_vadd_r, (vy_dot p0), Y0; ring).
    destruct H1 as [->| ->]; rewrite ?dot_vneg_l, Dy; auto. }
  assert (PE : forall v, perp h1 v = perp ey v) by (intros v; destruct H1 as [->| ->]; rewrite ?perp_neg; auto).
  destruct (arm_ok h1 h2 p2 P3 w U1 SL D) as (Q3 & E3 & X3); unfold on_axis; rewrite ?PE; auto.
  rewrite E3. cbn [bind]. destruct (call1 argsort z 2 Q3) as [N3|] eqn:C3.
  2:{ destruct (call1_total argsort SP z 6 2 Q3 ZL) as [N F]; [lia|congruence]. }
  cbn [bind]. apply flat_map_out_total. intros q3 I3.
  destruct (call1_in argsort _ _ _ _ C3) as [D3 _]. apply D3 in I3 as (t3 & I3 & M3). apply normalize_ang in M3.
  destruct (X3 t3 q3 I3) as [t2 E2]. rewrite E2. cbn [bind].
  destruct (normalize_total z 6 1 t2 ZL) as [[q2|] M2]; [lia| |]; rewrite M2; cbn [bind]; eauto. apply normalize_ang in M2.
  destruct (arm_sound h1 h2 p2 P3 w Q3 t3 q3 t2 q2 U1 SL D E3 I3 M3 E2 M2) as [AB _].
  unfold robot6_wrist. cbv zeta. set (R03 := mmul (mmul (rot h0 q1) (rot h1 q2)) (rot h2 q3)).
  assert (S03 : is_SO3 R03) by (unfold R03; auto 6 using SO3_mmul, rot_SO3).
  destruct (wrist_ok h3 h4 h5 (mmul (mT R03) A) U3 U4 SL35 P34) as (Q & E45 & X6); auto using SO3_mmul, SO3_T.
  { assert (G : norm (vsub (vadd p0 (rotate h0 q1 (vadd p1 (rotate h1 q2 (vadd p2 (rotate h2 q3 P3)))))) v1) <= Rmax 1 (norm P3) * sqrt_eps).
    { rewrite <- (rot_rotate h2), <- (rot_rotate h1), <- (rot_rotate h0) by auto.
      eapply Rle_trans; [|exact AB]. right. set (a := mvec (rot h1 q2) _).
      rewrite <- (SO3_norm (rot h0 q1) (vsub a w)) by auto using rot_SO3. f_equal.
      unfold w. rewrite !mvec_vsub, !mvec_vadd, SO3_vec_T, (on_axis_rot h0 q1 p0) by auto using rot_SO3.
      apply regroup. }
    specialize (WS q1 q2 q3 G). cbv zeta in WS. rewrite <- (rot_rotate h2), <- (rot_rotate h1), <- (rot_rotate h0) in WS by auto.
    rewrite <- (mvec_mmul (rot h1 q2)), <- (mvec_mmul (rot h0 q1)), <- (mmul_assoc (rot h0 q1)) in WS. fold R03 in WS.
    rewrite (mvec_mmul (mT R03) A h5). rewrite <- (SO3_dot R03), (SO3_vec_T R03) by auto. exact WS. }
  rewrite E45. cbn [bind]. destruct (call2 argsort z (3%nat, 4%nat) Q) as [N45|] eqn:C45.
  2:{ destruct (call2_total argsort SP z 6 3 4 Q ZL) as [N F]; try lia; congruence. }
  cbn [bind]. apply flat_map_out_total. intros [q4 q5] I45.
  destruct (call2_in argsort _ _ _ _ C45) as [D45 _]. apply D45 in I45 as ([t4 t5] & I45 & M45).
  unfold normalize_pair in M45. cbn [fst snd] in M45.
  destruct (normalize z 3 t4) as [[q4'|]|] eqn:M4; destruct (normalize z 4 t5) as [[q5'|]|] eqn:M5; cbn [bind] in M45; try discriminate.
  inversion M45; subst q4' q5'. apply normalize_ang in M4, M5.
  destruct (X6 t4 t5 q4 q5 I45 M4 M5) as [t6 E6].
  rewrite mT_mmul, mmul_assoc. rewrite E6. cbn [bind].
  destruct (normalize_total z 6 5 t6 ZL) as [[q6|] M6]; [lia| |]; rewrite M6; cbn [bind]; eauto.
Qed.
End Robot6Ok.

(** Out of reach, and the answers of the first joint's equation when it has no solution or all angles solve it *)
Section Far.
Context (argsort : list (flt R) -> list nat) (SP : argsort_spec argsort).
Context (r : robot) (h0 h1 h2 h3 h4 h5 p0 p1 p2 p3 p4 p5 p6 : vec3) (O : opw r h0 h1 h2 h3 h4 h5 p0 p1 p2 p3 p4 p5 p6).
Context (pose : transform) (last : option (list R)) (LL : forall l, last = Some l -> length l = 6%nat).
Let P3 := vadd p3 p4.
Let P6 := vadd p6 p5.
Let v1 := vsub (tp (unapply_aux r pose)) (mvec (tR (unapply_aux r pose)) P6).
Let d := dot ey (vadd (vadd p1 p2) P3).
Lemma robot6_no_base : (forall N1, call_flt argsort (normalize_joints r last false) 0 (subproblem4 ey v1 (vneg h0) d) = Ok N1 ->
    forall x, In x N1 -> robot6_arm argsort (normalize_joints r last false) [h0; h1; h2; h3; h4; h5] [p0; p1; p2; P3; vzero; vzero; P6]
      (tR (unapply_aux r pose)) (tp (unapply_aux r pose)) x = Ok []) ->
  snd (robot6_sphericalwrist_invkin argsort r pose last) = match last with None => Ok [] | Some _ => Err ValueError end.
Proof.
  intros AR. pose proof (opw_wf _ _ _ _ _ _ _ _ _ _ _ _ _ _ O) as WF. pose proof (opw_types _ _ _ _ _ _ _ _ _ _ _ _ _ _ O) as TY.
  rewrite (robot6_unfold argsort r _ _ _ _ _ _ _ _ _ _ _ _ _ O pose last). cbn [snd].
  unfold robot6_solve. rewrite (opw_H _ _ _ _ _ _ _ _ _ _ _ _ _ _ O). unfold index. cbn [nth_error bind]. cbv zeta. fold P3 P6. fold v1. fold d.
  destruct (call_flt_total argsort SP r last WF ltac:(rewrite TY; auto) LL 0 (subproblem4 ey v1 (vneg h0) d)) as [N1 E1]; [lia|].
  rewrite E1. cbn [bind]. rewrite (flat_map_out_nil _ N1 (AR N1 E1)). cbn [bind]. destruct last; reflexivity.
Qed.
Lemma robot6_far : norm (vadd p0 p1) + norm p2 + norm P3 < norm v1 -> ~ no_limits r \/ base_solvable h0 v1 d ->
  snd (robot6_sphericalwrist_invkin argsort r pose last) = match last with None => Ok [] | Some _ => Err ValueError end.
Proof.
  intros F NN. destruct (opw_units r _ _ _ _ _ _ _ _ _ _ _ _ _ O) as (U0 & U1 & U2 & U3 & U4 & U5).
  apply robot6_no_base. intros N1 E1 [q1|] I.
  - unfold robot6_arm, index. cbn [nth_error bind]. cbv zeta. fold v1.
    rewrite subproblem3_far; auto.
    + cbn [bind]. unfold call1, candidates. simpl. destruct last; reflexivity.
    + pose proof (norm_triangle (vsub (mvec (mT (rot h0 q1)) v1) (vadd p0 p1)) (vadd p0 p1)) as T.
      replace (vadd (vsub (mvec (mT (rot h0 q1)) v1) (vadd p0 p1)) (vadd p0 p1)) with (mvec (mT (rot h0 q1)) v1) in T.
      2:{ generalize (mvec (mT (rot h0 q1)) v1), (vadd p0 p1). clear. intros a b. apply vec3_eq; simpl; ring. }
      rewrite SO3_norm in T by auto using SO3_T, rot_SO3. lra.
  - exfalso. apply (call_flt_nan _ _ _ _ _ _ E1) in I as [I NL]. destruct NN as [NN|NN]; [auto|]. apply (base_no_nan h0 v1 d U0 NN I).
Qed.
Lemma robot6_beyond : (forall t, dot ey (rotate h0 (- t) v1) < d) ->
  snd (robot6_sphericalwrist_invkin argsort r pose last) = match last with None => Ok [] | Some _ => Err ValueError end.
Proof.
  intros B. destruct (opw_units r _ _ _ _ _ _ _ _ _ _ _ _ _ O) as (U0 & _).
  assert (E4 : subproblem4 ey v1 (vneg h0) d = []).
  { assert (B' : forall t, dot ey (mvec (rot (vneg h0) t) v1) < d) by (intros t; rewrite rot_neg, rot_rotate by auto; apply B).
    destruct (subproblem4_cases ey v1 (vneg h0) d) as [[F _]|[[_ F]|[[_ F]|(s1 & s2 & _ & _ & _ & F & _)]]]; auto; exfalso.
    - specialize (F 0). specialize (B' 0). lra. - specialize (F 0). specialize (B' 0). lra. - specialize (B' s1). lra. }
  apply robot6_no_base. rewrite E4. intros N1 E1 x I.
  destruct (call_flt_in argsort _ _ _ _ E1) as [C _]. apply C in I as (y & [] & _).
Qed.
Lemma robot6_nan_cases : (forall t, d < dot ey (rotate h0 (- t) v1)) \/ (forall t, dot ey (rotate h0 (- t) v1) = d) ->
  (~ no_limits r -> snd (robot6_sphericalwrist_invkin argsort r pose last) = match last with None => Ok [] | Some _ => Err ValueError end) /\
  (no_limits r -> last = None -> snd (robot6_sphericalwrist_invkin argsort r pose last) = Err AssertionError).
Proof.
  intros B. destruct (opw_units r _ _ _ _ _ _ _ _ _ _ _ _ _ O) as (U0 & _).
  assert (E4 : subproblem4 ey v1 (vneg h0) d = [NaN; NaN]).
  { assert (B' : (forall t, d < dot ey (mvec (rot (vneg h0) t) v1)) \/ (forall t, dot ey (mvec (rot (vneg h0) t) v1) = d)).
    { destruct B as [B|B]; [left|right]; intros t; rewrite rot_neg, rot_rotate by auto; apply B. }
    destruct (subproblem4_cases ey v1 (vneg h0) d) as [[_ F]|[[F _]|[[F _]|(s1 & s2 & _ & _ & _ & F & _ & _ & u & Nu)]]]; auto; exfalso.
    - specialize (F 0). destruct B' as [B'|B']; specialize (B' 0); lra.
    - destruct B' as [B'|B']. + specialize (B' s1). lra. + apply Nu, B'. }
  split.
  - intros NL. apply robot6_no_base. rewrite E4. intros N1 E1 x I. exfalso.
    destruct x as [x|]. 2:{ apply (call_flt_nan _ _ _ _ _ _ E1) in I as [_ X]. auto. }
    destruct (call_flt_in argsort _ _ _ _ E1) as [C _].
    apply C in I as (y & Iy & X). destruct Iy as [<-|[<-|[]]]; unfold normalize_flt in X; destruct (nlimits _) as [[ls us]|];
    try (destruct (index ls 0); [|discriminate]; simpl in X; destruct (index us 0); discriminate);
    destruct (nlast _); try discriminate; destruct (index l 0); discriminate.
  - intros NL LN. rewrite (robot6_unfold argsort r _ _ _ _ _ _ _ _ _ _ _ _ _ O pose last). cbn [snd].
    unfold robot6_solve. rewrite (opw_H _ _ _ _ _ _ _ _ _ _ _ _ _ _ O). unfold index. cbn [nth_error bind]. cbv zeta. fold P3 P6. fold v1. fold d.
    rewrite E4. subst last. unfold call_flt. rewrite candidates_no_last by reflexivity.
    assert (EF : filter_out (normalize_flt (normalize_joints r None false) 0) [NaN; NaN] = Ok [NaN; NaN]).
    { cbn. destruct NL as [-> | ->]; cbn; auto. destruct (rlower r); auto. }
    rewrite EF. reflexivity.
Qed.
End Far.

(** Failing at a singular wrist *)
Section Singular.
Context (argsort : list (flt R) -> list nat) (SP : argsort_spec argsort).
Context (r : robot) (h0 h1 h2 h3 h4 h5 p0 p1 p2 p3 p4 p5 p6 : vec3) (O : opw r h0 h1 h2 h3 h4 h5 p0 p1 p2 p3 p4 p5 p6).
Context (W : wf_aux r) (pose : transform) (RG : rigid pose).
Let P3 := vadd p3 p4.
Let P6 := vadd p6 p5.
Let A := tR (unapply_aux r pose).
Let pT := tp (unapply_aux r pose).
Let z := normalize_joints r None false.
Lemma path6_arm a1 a2 a3 a4 a5 a6 : reaches r [a1; a2; a3; a4; a5; a6] pose ->
  dot h0 ey = 0 -> ~ on_axis ey p2 -> ~ on_axis ey P3 -> sqrt_eps <= norm (vsub (dir (perp ey P3)) (dir (perp ey p2))) ->
  let e := vadd p2 (rotate h2 a3 P3) in
  ~ on_axis h0 (rotate h0 a1 (vadd p1 (rotate h1 a2 e))) -> ~ on_axis h1 e -> clear_move h1 a2 e ->
  allowed r 0 a1 -> allowed r 1 a2 -> allowed r 2 a3 ->
  Rabs a1 < 3 / 2 * PI -> Rabs a2 < 3 / 2 * PI -> Rabs a3 < 3 / 2 * PI ->
  exists t1 q1 Q3 t3 q3 t2 q2,
  let w := vsub (mvec (mT (rot h0 q1)) (vsub pT (mvec A P6))) (vadd p0 p1) in
  let R03 := mmul (mmul (rot h0 q1) (rot h1 q2)) (rot h2 q3) in
  (In (Fin t1) (subproblem4 ey (vsub pT (mvec A P6)) (vneg h0) (dot ey (vadd (vadd p1 p2) P3))) /\ normalize z 0 t1 = Ok (Some q1)) /\
  (subproblem3 P3 p2 h2 (norm w) = Ok Q3 /\ In t3 Q3 /\ normalize z 2 t3 = Ok (Some q3)) /\
  (subproblem1 (vadd p2 (mvec (rot h2 q3) P3)) w h1 = Ok t2 /\ normalize z 1 t2 = Ok (Some q2)) /\
  (forall u, mvec (mmul (mT R03) A) u = mvec (rot h3 a4) (mvec (rot h4 a5) (mvec (rot h5 a6) u))).
Proof.
  intros RC P0y O2 O3 Q e Oc Oe C2 L1 L2 L3 B1 B2 B3. pose proof PI_pos as PP. pose proof eps_pos as EP. pose proof sqrt_eps_pos as SEP.
  destruct (opw_units r _ _ _ _ _ _ _ _ _ _ _ _ _ O) as (U0 & U1 & U2 & U3 & U4 & U5).
  pose proof (opw_wf _ _ _ _ _ _ _ _ _ _ _ _ _ _ O) as WF. pose proof (opw_types _ _ _ _ _ _ _ _ _ _ _ _ _ _ O) as TY.
  pose proof (opw_h1 _ _ _ _ _ _ _ _ _ _ _ _ _ _ O) as H1. pose proof (opw_h2 _ _ _ _ _ _ _ _ _ _ _ _ _ _ O) as H2.
  pose proof (opw_34 _ _ _ _ _ _ _ _ _ _ _ _ _ _ O) as P34. pose proof (opw_35 _ _ _ _ _ _ _ _ _ _ _ _ _ _ O) as H35.
  pose proof (opw_p0 _ _ _ _ _ _ _ _ _ _ _ _ _ _ O) as O0. pose proof (opw_p0y _ _ _ _ _ _ _ _ _ _ _ _ _ _ O) as Y0.
  pose proof (ey_same _ _ H1 H2) as SL.
  assert (P45 : dot h4 h5 = 0) by (destruct H35 as [->| ->]; rewrite ?dot_vneg_r, dot_comm, P34; ring).
  assert (Uey : unit3 ey) by (apply ey_line; auto).
  assert (PE : forall h v, h = ey \/ h = vneg ey -> perp h v = perp ey v) by (intros h v [->| ->]; rewrite ?perp_neg; auto).
  assert (G : forall j t a, (j < 6)%nat -> allowed r j a -> ang_eq t a -> Rabs (t - a) < 4 * PI ->
     exists x, normalize z j t = Ok (Some x) /\ ang_eq x a).
  { intros. apply normalize_gets; auto. rewrite TY. auto. }
  apply Rabs_def2 in B1, B2, B3.
  assert (Wd : forall s, dot ey (mvec (rot h1 s) (vadd p2 (mvec (rot h2 a3) P3))) = dot ey (vadd p2 P3)).
  { assert (Sy : forall h s v, h = ey \/ h = vneg ey -> dot ey (mvec (rot h s) v) = dot ey v).
    { intros h s v Hh. apply same_line_dot; auto. }
    intros s. rewrite Sy, !dot_vadd_r, Sy by auto. reflexivity. }
  destruct (reach_split r _ _ _ _ _ _ _ _ _ _ _ _ _ O W pose a1 a2 a3 a4 a5 a6 RC) as [C RR]. fold P3 P6 A pT in C, RR. set (v1 := vsub pT (mvec A P6)) in *.
  unfold e in *. rewrite <- (rot_rotate h2) in * by auto.
  rewrite <- (rot_rotate h1), <- (rot_rotate h0) in Oc by auto.
  set (E := vadd p2 (mvec (rot h2 a3) P3)) in *. clear e.
  assert (OR : mvec (rot h0 a1) p0 = p0) by (apply on_axis_rot; auto).
  assert (V1 : mvec (mT (rot h0 a1)) v1 = vadd p0 (vadd p1 (mvec (rot h1 a2) E))).
  { rewrite C. rewrite <- OR at 1. rewrite <- mvec_vadd, SO3_T_vec by auto using rot_SO3. reflexivity. }
  (* q1 *)
  assert (D1 : dot ey (mvec (rot (vneg h0) a1) v1) = dot ey (vadd (vadd p1 p2) P3)).
  { rewrite rot_neg, <- rot_T, V1, !dot_vadd_r, Wd, dot_vadd_r, (vy_dot p0), Y0. ring. }
  assert (Hc : perp h0 v1 <> vzero).
  { intros Z. apply Oc. unfold on_axis in *. rewrite C, perp_vadd, O0, vadd_0_l in Z. exact Z. }
  destruct (turn_moves (vneg h0) ey v1) as [t0 T0]; auto using unit_neg.
  { rewrite dot_vneg_l, P0y. ring. } { rewrite perp_neg. auto. }
  assert (exists t1, In (Fin t1) (subproblem4 ey v1 (vneg h0) (dot ey (vadd (vadd p1 p2) P3))) /\ ang_eq t1 a1) as (t1 & I1 & A1).
  { destruct (subproblem4_cases ey v1 (vneg h0) (dot ey (vadd (vadd p1 p2) P3))) as [[_ F]|[[_ F]|[[_ F]|(s1 & s2 & F & _ & _ & _ & _ & X & _)]]].
    - specialize (F a1). lra.
    - specialize (F a1). lra.
    - exfalso. apply T0. rewrite F. rewrite <- (F 0), rot_0, mvec_I. auto.
    - rewrite F. destruct (X a1 D1); [exists s1|exists s2]; simpl; auto. }
  pose proof (subproblem4_range _ _ _ _ _ I1) as R1.
  destruct (G 0%nat t1 a1) as (q1 & M1 & K1); try lia; try (apply Rabs_def1; lra); auto.
  (* q3 *)
  assert (Ew : vsub (mvec (mT (rot h0 q1)) v1) (vadd p0 p1) = mvec (rot h1 a2) E).
  { rewrite (rot_ang_eq h0 q1 a1 K1), V1. apply w_diff. }
  assert (Nw : norm (vadd p2 (mvec (rot h2 a3) P3)) = norm (mvec (rot h1 a2) E)) by (rewrite SO3_norm by auto using rot_SO3; reflexivity).
  destruct (subproblem3_complete h2 P3 p2 _ a3 U2 Nw) as (Q3 & t3 & E3 & I3 & _ & A3).
  { rewrite PE by auto. exact O3. } { rewrite PE by auto. exact O2. }
  assert (A3' : ang_eq t3 a3). { apply A3. rewrite !(PE h2) by auto. exact Q. }
  pose proof (subproblem3_range _ _ _ _ _ _ U2 E3 I3) as R3.
  destruct (G 2%nat t3 a3) as (q3 & M3 & K3); try lia; try (apply Rabs_def1; lra); auto.
  (* q2 *)
  destruct (subproblem1_gets h1 a2 E U1 Oe C2) as (t2 & E2 & A2 & R2).
  destruct (G 1%nat t2 a2) as (q2 & M2 & K2); try lia; try (apply Rabs_def1; lra); auto.
  exists t1, q1, Q3, t3, q3, t2, q2. cbv zeta. fold v1. rewrite Ew.
  split; auto. split; auto. split. { rewrite (rot_ang_eq h2 q3 a3 K3). fold E. auto. }
  set (R03 := mmul (mmul (rot h0 q1) (rot h1 q2)) (rot h2 q3)).
  assert (S03 : is_SO3 R03) by (unfold R03; auto 6 using SO3_mmul, rot_SO3).
  intros u. rewrite mvec_mmul, RR. rewrite <- (rot_ang_eq h0 q1 a1 K1), <- (rot_ang_eq h1 q2 a2 K2), <- (rot_ang_eq h2 q3 a3 K3).
  rewrite <- (mvec_mmul (rot h1 q2)), <- (mvec_mmul (rot h0 q1)), <- mmul_assoc. fold R03. apply SO3_T_vec; auto.
Qed.
Lemma robot6_singular a1 a2 a3 a4 a5 a6 : reaches r [a1; a2; a3; a4; a5; a6] pose ->
  dot h0 ey = 0 -> ~ on_axis ey p2 -> ~ on_axis ey P3 -> sqrt_eps <= norm (vsub (dir (perp ey P3)) (dir (perp ey p2))) ->
  let e := vadd p2 (rotate h2 a3 P3) in
  ~ on_axis h0 (rotate h0 a1 (vadd p1 (rotate h1 a2 e))) -> ~ on_axis h1 e -> clear_move h1 a2 e ->
  allowed r 0 a1 -> allowed r 1 a2 -> allowed r 2 a3 ->
  Rabs a1 < 3 / 2 * PI -> Rabs a2 < 3 / 2 * PI -> Rabs a3 < 3 / 2 * PI ->
  sin a5 * sin a5 < eps ->
  snd (robot6_sphericalwrist_invkin argsort r pose None) = Err AssertionError.
Proof.
  intros RC P0y O2 O3 Q e Oc Oe C2 L1 L2 L3 B1 B2 B3 S5.
  destruct (opw_units r _ _ _ _ _ _ _ _ _ _ _ _ _ O) as (U0 & U1 & U2 & U3 & U4 & U5).
  pose proof (opw_wf _ _ _ _ _ _ _ _ _ _ _ _ _ _ O) as WF. pose proof (opw_types _ _ _ _ _ _ _ _ _ _ _ _ _ _ O) as TY.
  pose proof (opw_34 _ _ _ _ _ _ _ _ _ _ _ _ _ _ O) as P34. pose proof (opw_35 _ _ _ _ _ _ _ _ _ _ _ _ _ _ O) as H35.
  pose proof (opw_H _ _ _ _ _ _ _ _ _ _ _ _ _ _ O) as HH.
  destruct (path6_arm a1 a2 a3 a4 a5 a6 RC P0y O2 O3 Q Oc Oe C2 L1 L2 L3 B1 B2 B3) as (t1 & q1 & Q3 & t3 & q3 & t2 & q2 & PT).
  cbv zeta in PT. destruct PT as ((I1 & M1) & (E3 & I3 & M3) & (E2 & M2) & R36).
  rewrite (robot6_unfold argsort r _ _ _ _ _ _ _ _ _ _ _ _ _ O pose None). cbn [snd]. fold P3 P6.
  destruct (robot6_solve argsort r [p0; p1; p2; P3; vzero; vzero; P6] (unapply_aux r pose) None) as [res|e'] eqn:E.
  2:{ destruct (robot6_solve_err argsort SP r h0 h1 h2 h3 h4 h5 p0 p1 p2 P3 vzero vzero P6 (unapply_aux r pose) None HH WF) with (e := e') as [-> | [_ X]]; auto.
      - rewrite TY. auto. - discriminate. - congruence. }
  exfalso. unfold robot6_solve in E. rewrite HH in E. unfold index in E. cbn [nth_error bind] in E. cbv zeta in E. fold z A pT in E.
  destruct (call_flt argsort z 0 _) as [N1|] eqn:E1; [|discriminate]. cbn [bind] in E.
  destruct (flat_map_out _ N1) as [sols|] eqn:ES; [|discriminate].
  destruct (call_flt_in argsort _ _ _ _ E1) as [_ C1]. specialize (C1 eq_refl _ (Fin q1) I1). simpl in C1. rewrite M1 in C1. specialize (C1 eq_refl).
  destruct (flat_map_out_ok _ _ _ ES _ C1) as [ys F1].
  unfold robot6_arm, index in F1. cbn [nth_error bind] in F1. cbv zeta in F1. rewrite E3 in F1. cbn [bind] in F1.
  destruct (call1 argsort z 2 Q3) as [N3|] eqn:C3; [|discriminate]. cbn [bind] in F1.
  destruct (call1_in argsort _ _ _ _ C3) as [_ D3]. specialize (D3 eq_refl _ _ I3 M3).
  destruct (flat_map_out_ok _ _ _ F1 _ D3) as [ys3 F3]. rewrite E2 in F3. cbn [bind] in F3. rewrite M2 in F3. cbn [bind] in F3.
  unfold robot6_wrist in F3. cbv zeta in F3.
  rewrite (wrist_singular h3 h4 h5) in F3; auto.
  - discriminate.
  - rewrite R36. apply SO3_unit; auto using rot_SO3. apply SO3_unit; auto using rot_SO3. apply SO3_unit; auto using rot_SO3.
  - rewrite R36, (rot_axis h5 a6), rot_dot_axis, wrist_dot by auto. pose proof (sin2_cos2 a5) as SC. unfold Rsqr in SC. lra.
Qed.
End Singular.

(** The orientation and wrist centre are determined by the pose *)
Lemma wrist_unique r pose w A v : wf_aux r -> wrist_of r pose w A v ->
  v = vsub (tp (unapply_aux r pose)) (mvec (tR (unapply_aux r pose)) w) /\ forall u, mvec A u = mvec (tR (unapply_aux r pose)) u.
Proof.
  intros W H. set (A' := tR (unapply_aux r pose)). set (p := tp (unapply_aux r pose)).
  assert (K : forall u, vadd v (mvec A (vadd w u)) = vadd (mvec A' u) p).
  { intros u. destruct (point6_onto r u W) as [x <-]. specialize (H x). rewrite (pose_split r pose x W) in H.
    symmetry. apply (act_opt_inj _ _ _ (wf_base r W) H). }
  assert (V : v = vsub p (mvec A' w)).
  { specialize (K (vneg w)). rewrite add_neg, mvec_vzero, vadd_0_r in K. rewrite K, mvec_vneg. generalize (mvec A' w). clear. intros; la_ring. }
  split; auto. intros u. specialize (K (vsub u w)). rewrite add_sub, V, (mvec_vsub A') in K.
  revert K. generalize (mvec A u), (mvec A' u), (mvec A' w). clear. intros [a b c] [d e f] [g h i] K.
  destruct p. unfold vadd, vsub in K. simpl in K. inversion K. f_equal; lra.
Qed.

Section UrOk.
Context (argsort : list (flt R) -> list nat) (SP : argsort_spec argsort).
Context (r : robot) (h p0 p1 p2 p3 p4 p5 p6 : vec3) (U : ur r h p0 p1 p2 p3 p4 p5 p6).
Context (W : wf_aux r) (pose : transform) (RG : rigid pose) (last : option (list R)).
Let A := tR (unapply_aux r pose).
Let p04 := vsub (tp (unapply_aux r pose)) (mvec A (vadd p6 p5)).
Let d := dot ey (vadd (vadd (vadd p1 p2) p3) p4).
Lemma ur_no_raise : (forall l, last = Some l -> length l = 6%nat) ->
  ~ on_axis ey p2 -> ~ on_axis ey p3 -> norm (perp ey p2) <> norm (perp ey p3) ->
  ~ no_limits r \/ base_solvable ez p04 d ->
  (forall q1, dot ey (rotate ez (- q1) p04) = d ->
     let c := dot (mvec A ey) (rotate ez q1 ey) in eps <= 1 - c * c) ->
  forall e, ur_invkin argsort r pose last = Err e -> e = ValueError /\ last <> None.
Proof.
  intros LL O2 O3 NE NN WS e E.
  pose proof (ur_wf _ _ _ _ _ _ _ _ _ U) as WF. pose proof (ur_types _ _ _ _ _ _ _ _ _ U) as TY.
  pose proof (ur_h _ _ _ _ _ _ _ _ _ U) as Lh. pose proof (ur_p0 _ _ _ _ _ _ _ _ _ U) as O0.
  pose proof (ey_line _ Lh) as Uh. pose proof ez_unit' as Uz. pose proof (unit_neg _ Uz) as Uz'. pose proof (h_ez h Lh) as Phz.
  pose proof (rigid_unapply_aux r pose W RG) as SA. fold A in SA. unfold rigid in SA.
  set (z := normalize_joints r last false).
  assert (ZL : lims_len z 6) by (apply normalizer_len; auto; rewrite TY; auto).
  rewrite (ur_unfold argsort r h p0 p1 p2 p3 p4 p5 p6 U pose last) in E. fold A p04 d z in E.
  destruct (call_flt argsort z 0 _) as [N1|e1] eqn:E1; cbn [bind] in E.
  2:{ match type of E1 with call_flt _ _ _ ?q = _ => destruct (call_flt_total argsort SP r last WF ltac:(rewrite TY; auto) LL 0 q) as [N F]; [lia|] end. fold z in F. congruence. }
  assert (AR : forall x, In x N1 -> exists ys, ur_arm argsort z (rH r) (rP r) A p04 x = Ok ys).
  2:{ destruct (flat_map_out_total (ur_arm argsort z (rH r) (rP r) A p04) N1 AR) as [sols ES].
      rewrite ES in E. cbn [bind] in E. apply sort_err in E; auto. }
  clear E. intros [q1|] I.
  2:{ exfalso. destruct (call_flt_nan argsort r last 0 _ _ E1 I) as [X Y]. destruct NN as [NN|NN]; [auto|].
      revert X. apply base_no_nan; auto. }
  destruct (call_flt_in argsort _ _ _ _ E1) as [C1 _]. apply C1 in I as (ft1 & I1 & M1). clear C1.
  apply normalize_flt_some in M1 as (t1 & -> & M1). apply normalize_ang in M1. apply subproblem4_in in I1.
  rewrite rot_neg in I1. assert (B1 : dot ey (mvec (rot ez (- q1)) p04) = d).
  { rewrite <- rot_T, (rot_ang_eq ez q1 t1 M1), rot_T. exact I1. }
  rewrite (ur_H _ _ _ _ _ _ _ _ _ U), (ur_P _ _ _ _ _ _ _ _ _ U).
  unfold ur_arm, index. cbn [nth_error bind]. cbv zeta. set (R01 := rot ez q1).
  assert (S01 : is_SO3 R01) by (unfold R01; auto using rot_SO3).
  set (R16 := mmul (mT R01) A). assert (S16 : is_SO3 R16) by (unfold R16; auto using SO3_mmul, SO3_T).
  destruct (wrist_ok h (vneg ez) h R16 Uh Uz') as (Q & E45 & X6); auto.
  { left; auto. }
  { specialize (WS q1). rewrite <- rot_rotate in WS by auto. specialize (WS B1). cbv zeta in WS. rewrite <- rot_rotate in WS by auto. fold R01 in WS.
    unfold R16. rewrite (mvec_mmul (mT R01) A h), <- (SO3_dot R01), (SO3_vec_T R01) by auto.
    destruct Lh as [->| ->]; auto. rewrite !mvec_vneg, dot_vneg_l, dot_vneg_r. lra. }
  rewrite E45. cbn [bind]. apply flat_map_out_total. intros [q24 q5] I45.
  destruct (X6 q24 q5 q24 q5 I45) as [t6 E6]; auto using ang_eq_refl.
  unfold ur_inner, index. cbn [nth_error bind]. cbv zeta. fold R01.
  set (p23 := vsub (vsub (vsub p04 p0) (mvec R01 p1)) (mvec (mmul R01 (rot h q24)) p4)).
  assert (Nw : norm p23 = norm (mvec (mT R01) p23)) by (rewrite SO3_norm; auto using SO3_T). rewrite Nw.
  set (w := mvec (mT R01) p23) in *.
  assert (OR : mvec R01 p0 = p0) by (apply on_axis_rot; auto).
  assert (Ew : w = vsub (vsub (vsub (mvec (mT R01) p04) p0) p1) (mvec (rot h q24) p4)).
  { unfold w, p23. rewrite !mvec_vsub, (mvec_mmul R01 (rot h q24)), !SO3_T_vec by auto. rewrite <- OR at 1. rewrite SO3_T_vec by auto. reflexivity. }
  assert (Sy : forall s v, dot ey (mvec (rot h s) v) = dot ey v).
  { intros s v. apply same_line_dot; auto. apply ey_line; auto. }
  assert (Dy : dot ey w = dot ey (vadd p2 p3)).
  { rewrite Ew, !dot_vsub_r, Sy, (vy_dot p0), (ez_p0y p0 O0). unfold R01. rewrite rot_T, B1. unfold d. rewrite !dot_vadd_r. ring. }
  assert (D : dot h w = dot h (vadd p2 p3)) by (destruct Lh as [->| ->]; rewrite ?dot_vneg_l, Dy; auto).
  assert (PE : forall v, perp h v = perp ey v) by (intros v; destruct Lh as [->| ->]; rewrite ?perp_neg; auto).
  destruct (arm_ok h h p2 p3 w Uh (or_introl eq_refl) D) as (Q3 & E3 & X3); unfold on_axis; rewrite ?PE; auto.
  rewrite E3. cbn [bind]. destruct (call1 argsort z 2 Q3) as [N3|] eqn:C3.
  2:{ destruct (call1_total argsort SP z 6 2 Q3 ZL) as [N F]; [lia|congruence]. }
  cbn [bind]. apply flat_map_out_total. intros q3 I3.
  destruct (call1_in argsort _ _ _ _ C3) as [D3 _]. apply D3 in I3 as (t3 & I3 & M3).
  destruct (X3 t3 q3 I3) as [t2 E2]. rewrite E2. cbn [bind].
  destruct (normalize_total z 6 1 t2 ZL) as [[q2|] M2]; [lia| |]; rewrite M2; cbn [bind]; eauto.
  destruct (normalize_total z 6 3 (q24 - q2 - q3) ZL) as [[q4|] M4]; [lia| |]; rewrite M4; cbn [bind]; eauto.
  rewrite (mmul_assoc R01 (rot h q24)), mT_mmul, (mmul_assoc (mT (mmul (rot h q24) (rot (vneg ez) q5)))). fold R16. rewrite E6. cbn [bind].
  destruct (normalize_total z 6 5 t6 ZL) as [[q6|] M6]; [lia| |]; rewrite M6; cbn [bind]; eauto.
Qed.
End UrOk.

(** *** Completeness of ur_invkin *)
Lemma normalize_same r j t : (forall ls us, rlower r = Some ls -> rupper r = Some us -> (j < length ls)%nat /\ (j < length us)%nat) ->
  allowed r j t -> normalize (normalize_joints r None false) j t = Ok (Some t).
Proof.
  intros Len Al. unfold normalize, normalize_joints. cbn [nlimits nlast].
  destruct (rlower r) as [ls|] eqn:El; [|reflexivity]. destruct (rupper r) as [us|] eqn:Eu; [|reflexivity].
  destruct (Len ls us eq_refl eq_refl) as [Ll Lu]. unfold index.
  destruct (nth_error ls j) as [l|] eqn:Nl; [|apply nth_error_None in Nl; lia].
  destruct (nth_error us j) as [u|] eqn:Nu; [|apply nth_error_None in Nu; lia]. cbn [bind].
  destruct (Al l u) as [A B]; [exists ls, us; auto|]. unfold inside. rewrite !Rltb_lt by auto. reflexivity.
Qed.
Lemma normalize_free r j t : no_limits r -> normalize (normalize_joints r None false) j t = Ok (Some t).
Proof.
  intros N. unfold normalize, normalize_joints. cbn [nlimits nlast]. destruct N as [-> | ->]; [reflexivity|]. destruct (rlower r); reflexivity.
Qed.
Lemma three_turns c : - (3 * PI) <= c <= 3 * PI -> exists y, ang_eq c y /\ - PI <= y <= PI /\ Rabs (c - y) <= 2 * PI.
Proof.
  intros B. pose proof PI_pos as PP. destruct (Rlt_le_dec PI c) as [L|L]; [|destruct (Rlt_le_dec c (- PI)) as [L'|L']].
  - exists (c - 2 * PI). split; [exists 1%Z; simpl; ring|]. split; [lra|]. rewrite Rabs_right; lra.
  - exists (c + 2 * PI). split; [exists (-1)%Z; simpl; ring|]. split; [lra|]. rewrite Rabs_left; lra.
  - exists c. split; [apply ang_eq_refl|]. split; [lra|]. rewrite Rminus_diag_eq, Rabs_R0 by auto. lra.
Qed.
Lemma ur_regroup a b c g e : vadd a (vadd b (vadd c (vadd g e))) = vadd (vadd a (vadd b (vadd c g))) e. Proof. la_ring. Qed.
Lemma ur_w a b c g : vsub (vsub (vsub (vadd a (vadd b (vadd c g))) a) b) g = c. Proof. la_ring. Qed.
Section UrComplete.
Context (r : robot) (h p0 p1 p2 p3 p4 p5 p6 : vec3) (U : ur r h p0 p1 p2 p3 p4 p5 p6).
Context (W : wf_aux r) (pose : transform) (RG : rigid pose).
Let A := tR (unapply_aux r pose).
Let pT := tp (unapply_aux r pose).
Let P6 := vadd p6 p5.
Let p04 := vsub pT (mvec A P6).
Lemma ur_reach_split a1 a2 a3 a4 a5 a6 : reaches r [a1; a2; a3; a4; a5; a6] pose ->
  p04 = vadd p0 (mvec (rot ez a1) (vadd p1 (vadd (mvec (rot h a2) (vadd p2 (mvec (rot h a3) p3))) (mvec (rot h (a2 + a3 + a4)) p4)))) /\
  (forall u, mvec A u = mvec (rot ez a1) (mvec (rot h (a2 + a3 + a4)) (mvec (rot (vneg ez) a5) (mvec (rot h a6) u)))).
Proof.
  intros RC.
  assert (K : forall u, vadd (mvec A u) pT = vadd p0 (mvec (rot ez a1) (vadd p1 (vadd (mvec (rot h a2) (vadd p2 (mvec (rot h a3) p3)))
    (mvec (rot h (a2 + a3 + a4)) (vadd p4 (mvec (rot (vneg ez) a5) (mvec (rot h a6) (vadd P6 u))))))))).
  { intros u. destruct (point6_onto r u W) as [x <-]. specialize (RC x).
    rewrite (ur_point r _ _ _ _ _ _ _ _ _ _ _ _ _ _ x U), (pose_split r pose x W) in RC.
    symmetry. apply (act_opt_inj _ _ _ (wf_base r W) RC). }
  assert (Z : mvec (rot (vneg ez) a5) (mvec (rot h a6) vzero) = vzero) by (rewrite !mvec_vzero; auto).
  assert (C : p04 = vadd p0 (mvec (rot ez a1) (vadd p1 (vadd (mvec (rot h a2) (vadd p2 (mvec (rot h a3) p3))) (mvec (rot h (a2 + a3 + a4)) p4))))).
  { specialize (K (vneg P6)). rewrite add_neg in K.
    rewrite Z, vadd_0_r in K. rewrite <- K, mvec_vneg. unfold p04. apply sub_neg. }
  split; auto. intros u. pose proof (K (vsub u P6)) as K1. rewrite add_sub in K1.
  rewrite mvec_vsub in K1.
  rewrite (sub_back (mvec A u) (mvec A P6) pT). fold p04.
  rewrite K1, C. set (v := mvec (rot (vneg ez) a5) _).
  rewrite (mvec_vadd (rot h (a2 + a3 + a4)) p4 v). rewrite !(mvec_vadd (rot ez a1)).
  apply chain_diff.
Qed.

Lemma path_ur_core (z : normalizer) (Kp : nat -> R -> R -> Prop) a1 a2 a3 a4 a5 a6 : (forall j x a, Kp j x a -> ang_eq x a) ->
  (forall j t a, (j < 6)%nat -> allowed r j a -> ang_eq t a -> Rabs (t - a) < 4 * PI -> exists x, normalize z j t = Ok (Some x) /\ Kp j x a) ->
  (forall t4 t2 q2 t3 q3, - PI <= t4 <= PI -> - PI < t2 <= PI -> normalize z 1 t2 = Ok (Some q2) -> normalize z 2 t3 = Ok (Some q3) ->
     Kp 1%nat q2 a2 -> Kp 2%nat q3 a3 -> ang_eq (t4 - q2 - q3) a4 -> exists q4, normalize z 3 (t4 - q2 - q3) = Ok (Some q4) /\ Kp 3%nat q4 a4) ->
   reaches r [a1; a2; a3; a4; a5; a6] pose ->
  ~ on_axis ey p2 -> ~ on_axis ey p3 -> sqrt_eps <= norm (vsub (dir (perp ey p3)) (dir (perp ey p2))) ->
  let e := vadd p2 (rotate h a3 p3) in
  let f := a2 + a3 + a4 in
  ~ on_axis ez (rotate ez a1 (vadd p1 (vadd (rotate h a2 e) (rotate h f p4)))) -> ~ on_axis h e ->
  clear_move h a2 e -> eps <= sin a5 * sin a5 -> clear_move h f (rotate (vneg ez) a5 h) -> clear_move h a6 (vneg ez) ->
  allowed r 0 a1 -> allowed r 1 a2 -> allowed r 2 a3 -> allowed r 5 a6 ->
  Forall (fun a => Rabs a < 3 / 2 * PI) [a1; a2; a3; a6] ->
  exists q1 q2 q3 q4 q5 q6, path_ur z ez h h h (vneg ez) h p0 p1 p2 p3 p4 A p04 q1 q2 q3 q4 q5 q6 /\
    (Kp 0%nat q1 a1 /\ Kp 1%nat q2 a2 /\ Kp 2%nat q3 a3 /\ Kp 3%nat q4 a4 /\ (ang_eq q5 a5 /\ - PI <= q5 <= PI) /\ Kp 5%nat q6 a6).
Proof.
  intros KA G G4 RC O2 O3 Q e f Oc Oe C2 S5 C4 C6 L1 L2 L3 L6 B. pose proof PI_pos as PP. pose proof eps_pos as EP. pose proof sqrt_eps_pos as SEP.
  pose proof (ur_wf _ _ _ _ _ _ _ _ _ U) as WF. pose proof (ur_types _ _ _ _ _ _ _ _ _ U) as TY.
  pose proof (ur_h _ _ _ _ _ _ _ _ _ U) as Lh. pose proof (ur_p0 _ _ _ _ _ _ _ _ _ U) as O0.
  pose proof (ey_line _ Lh) as Uh. pose proof ez_unit' as Uz. pose proof (unit_neg _ Uz) as Uz'. pose proof (h_ez h Lh) as Phz.
  assert (Pzh : dot (vneg ez) h = 0) by (rewrite dot_comm; auto).
  assert (Uey : unit3 ey) by (apply ey_line; auto).
  assert (PE : forall v, perp h v = perp ey v) by (intros v; destruct Lh as [->| ->]; rewrite ?perp_neg; auto).
  assert (Bs : Rabs a1 < 3 / 2 * PI /\ Rabs a2 < 3 / 2 * PI /\ Rabs a3 < 3 / 2 * PI /\ Rabs a6 < 3 / 2 * PI).
  { repeat match goal with H : Forall _ (_ :: _) |- _ => inversion H; clear H; subst end. auto 10. }
  destruct Bs as (B1 & B2 & B3 & B6). clear B.
  apply Rabs_def2 in B1, B2, B3, B6.
  assert (Sy : forall s v, dot ey (mvec (rot h s) v) = dot ey v).
  { intros s v. apply same_line_dot; auto. }
  destruct (ur_reach_split a1 a2 a3 a4 a5 a6 RC) as [C RR]. fold f in C, RR.
  unfold e in *. rewrite <- (rot_rotate h a3) in Oc, Oe, C2 by auto. rewrite <- (rot_rotate ez), <- (rot_rotate h a2), <- (rot_rotate h f) in Oc by auto.
  set (E := vadd p2 (mvec (rot h a3) p3)) in *. clear e.
  assert (OR : forall s, mvec (rot ez s) p0 = p0) by (intros; apply on_axis_rot; auto).
  assert (V1 : mvec (mT (rot ez a1)) p04 = vadd p0 (vadd p1 (vadd (mvec (rot h a2) E) (mvec (rot h f) p4)))).
  { rewrite C. rewrite <- (OR a1) at 1. rewrite <- mvec_vadd, SO3_T_vec by auto using rot_SO3. reflexivity. }
  (* q1 *)
  assert (D1 : dot ey (mvec (rot (vneg ez) a1) p04) = dot ey (vadd (vadd (vadd p1 p2) p3) p4)).
  { rewrite rot_neg, <- rot_T, V1. unfold E. rewrite !dot_vadd_r, !Sy, dot_vadd_r, Sy, (vy_dot p0), (ez_p0y p0 O0). ring. }
  assert (Hc : perp ez p04 <> vzero).
  { intros Z. apply Oc. unfold on_axis in *. rewrite C, perp_vadd, O0, vadd_0_l in Z. exact Z. }
  destruct (turn_moves (vneg ez) ey p04) as [t0 T0]; auto.
  { unfold dot, vneg, ez, ey; simpl; ring. } { rewrite perp_neg. auto. }
  assert (exists t1, In (Fin t1) (subproblem4 ey p04 (vneg ez) (dot ey (vadd (vadd (vadd p1 p2) p3) p4))) /\ ang_eq t1 a1) as (t1 & I1 & A1).
  { destruct (subproblem4_cases ey p04 (vneg ez) (dot ey (vadd (vadd (vadd p1 p2) p3) p4))) as [[_ F]|[[_ F]|[[_ F]|(s1 & s2 & F & _ & _ & _ & _ & X & _)]]].
    - specialize (F a1). lra.
    - specialize (F a1). lra.
    - exfalso. apply T0. rewrite F. rewrite <- (F 0), rot_0, mvec_I. auto.
    - rewrite F. destruct (X a1 D1); [exists s1|exists s2]; simpl; auto. }
  pose proof (subproblem4_range _ _ _ _ _ I1) as R1.
  destruct (G 0%nat t1 a1) as (q1 & M1 & KK1); try lia; try (apply Rabs_def1; lra); auto. pose proof (KA _ _ _ KK1) as K1.
  (* q2+q3+q4 and q5 *)
  set (R01 := rot ez q1). assert (S01 : is_SO3 R01) by (unfold R01; auto using rot_SO3).
  assert (ER : R01 = rot ez a1) by (unfold R01; apply rot_ang_eq; auto).
  assert (R16 : forall u, mvec (mmul (mT R01) A) u = mvec (rot h f) (mvec (rot (vneg ez) a5) (mvec (rot h a6) u))).
  { intros u. rewrite (mvec_mmul (mT R01) A), RR, <- ER. apply SO3_T_vec; auto. }
  assert (F5 : mvec (rot h f) (mvec (rot (vneg ez) a5) h) = mvec (mmul (mT R01) A) h) by (rewrite R16, rot_axis; auto).
  assert (HK : eps <= Rabs (1 - dot h (vneg ez) * dot h (vneg ez))). { rewrite Phz, Rabs_right; pose proof eps_small; lra. }
  assert (WD : dot (mvec (rot (vneg ez) a5) h) h * dot (mvec (rot (vneg ez) a5) h) h = cos a5 * cos a5).
  { apply wrist_dot; auto. }
  assert (GP : eps <= cone_gap h (mvec (mmul (mT R01) A) h) h (vneg ez)).
  { rewrite wrist_gap by auto. rewrite <- F5, rot_dot_axis by auto. rewrite WD.
    pose proof (sin2_cos2 a5) as SC. unfold Rsqr in SC. lra. }
  destruct (subproblem2_complete h _ h (vneg ez) f a5 Uh Uz' HK F5 GP) as (Q45 & t4 & t5 & E45 & I45 & A4 & A5).
  assert (A4' : ang_eq t4 f).
  { destruct A4 as [A4|[-> A4]]; auto. rewrite <- F5 in A4. apply (rot_perp_unique h (mvec (rot (vneg ez) a5) h)); auto.
    - intros Z. apply (f_equal (fun v => dot v v)) in Z. rewrite perp_norm, WD, SO3_dot, dot_00 in Z by auto using rot_SO3.
      pose proof (sin2_cos2 a5) as SC. unfold Rsqr in SC. unfold unit3, norm2 in Uh. lra.
    - rewrite rot_0, mvec_I. destruct C4 as [C4|C4]; rewrite <- !rot_rotate in C4 by auto; auto. rewrite norm_vsub_sym in C4. lra. }
  assert (A5' : ang_eq t5 a5).
  { destruct A5 as [A5|[-> A5]]; auto. exfalso.
    pose proof (chord (vneg ez) a5 h Uz' Pzh) as CH. unfold unit3, norm2 in Uh. rewrite Uh in CH.
    pose proof sqrt_eps_sq as SQ.
    pose proof (sin2_cos2 a5) as SC. unfold Rsqr in SC. pose proof (COS_bound a5).
    pose proof (norm_nonneg (vsub (mvec (rot (vneg ez) a5) h) h)) as N0.
    assert (X1 : eps <= 2 * (1 - cos a5)) by nra.
    revert A5 CH N0. generalize (norm (vsub (mvec (rot (vneg ez) a5) h) h)). intros n A5 CH N0.
    assert (n * n < sqrt_eps * sqrt_eps) by nra. lra. }
  assert (NP : dot h h = dot (mvec (mmul (mT R01) A) h) (mvec (mmul (mT R01) A) h)).
  { rewrite <- F5, !SO3_dot by auto using rot_SO3. auto. }
  destruct (subproblem2_range _ _ _ _ _ _ _ Uh Uz' HK GP NP E45 I45) as [R4 R5].
  (* q3 *)
  set (p23 := vsub (vsub (vsub p04 p0) (mvec R01 p1)) (mvec (mmul R01 (rot h t4)) p4)).
  assert (Ew : mvec (mT R01) p23 = mvec (rot h a2) E).
  { unfold p23. rewrite !mvec_vsub, (mvec_mmul R01 (rot h t4)), !SO3_T_vec by auto. rewrite <- (OR q1) at 1. fold R01. rewrite SO3_T_vec by auto.
    rewrite ER, V1, (rot_ang_eq h t4 f A4'). apply ur_w. }
  assert (Nw0 : norm p23 = norm (mvec (rot h a2) E)) by (rewrite <- Ew, SO3_norm; auto using SO3_T).
  assert (Nw : norm (vadd p2 (mvec (rot h a3) p3)) = norm (mvec (rot h a2) E)) by (rewrite SO3_norm by auto using rot_SO3; reflexivity).
  destruct (subproblem3_complete h p3 p2 _ a3 Uh Nw) as (Q3 & t3 & E3 & I3 & _ & A3).
  { rewrite PE by auto. exact O3. } { rewrite PE by auto. exact O2. }
  assert (A3' : ang_eq t3 a3). { apply A3. rewrite !PE. exact Q. }
  pose proof (subproblem3_range _ _ _ _ _ _ Uh E3 I3) as R3.
  destruct (G 2%nat t3 a3) as (q3 & M3 & KK3); try lia; try (apply Rabs_def1; lra); auto. pose proof (KA _ _ _ KK3) as K3.
  (* q2 *)
  destruct (subproblem1_gets h a2 E Uh Oe C2) as (t2 & E2 & A2 & R2).
  destruct (G 1%nat t2 a2) as (q2 & M2 & KK2); try lia; try (apply Rabs_def1; lra); auto. pose proof (KA _ _ _ KK2) as K2.
  (* q4 *)
  assert (K4' : ang_eq (t4 - q2 - q3) a4).
  { destruct A4' as [n4 N4], K2 as [n2 N2], K3 as [n3 N3]. exists (n4 - n2 - n3)%Z. rewrite !minus_IZR. unfold f in N4. lra. }
  destruct (G4 t4 t2 q2 t3 q3 R4 R2 M2 M3 KK2 KK3 K4') as (q4 & M4 & KK4). pose proof (KA _ _ _ KK4) as K4.
  (* q6 *)
  assert (R56 : mvec (mmul (mT (mmul (mmul R01 (rot h t4)) (rot (vneg ez) t5))) A) (vneg ez) = mvec (rot h a6) (vneg ez)).
  { rewrite (mmul_assoc R01), mT_mmul, mmul_assoc, (mvec_mmul (mT (mmul (rot h t4) (rot (vneg ez) t5)))), R16.
    rewrite <- (rot_ang_eq h t4 f A4'), <- (rot_ang_eq (vneg ez) t5 a5 A5').
    rewrite <- (mvec_mmul (rot h t4)), SO3_T_vec by auto using SO3_mmul, rot_SO3. reflexivity. }
  assert (P4 : perp h (vneg ez) <> vzero).
  { intros Z. apply (f_equal (fun v => dot v v)) in Z. rewrite perp_norm, dot_00, Pzh in Z by auto. unfold unit3, norm2 in Uz'. lra. }
  destruct (subproblem1_gets h a6 (vneg ez) Uh P4 C6) as (t6 & E6 & A6 & R6).
  destruct (G 5%nat t6 a6) as (q6 & M6 & KK6); try lia; try (apply Rabs_def1; lra); auto. pose proof (KA _ _ _ KK6) as K6.
  exists q1, q2, q3, q4, t5, q6. split.
  2:{ auto 10. }
  exists t1, Q45, t4, Q3, t3, t2, t6. cbv zeta. fold R01 p23. rewrite Nw0, Ew.
  rewrite (rot_ang_eq h q3 a3 K3). fold E. rewrite R56. auto 15.
Qed.
Let z := normalize_joints r None false.
Lemma path_ur_complete a1 a2 a3 a4 a5 a6 : reaches r [a1; a2; a3; a4; a5; a6] pose ->
  ~ on_axis ey p2 -> ~ on_axis ey p3 -> sqrt_eps <= norm (vsub (dir (perp ey p3)) (dir (perp ey p2))) ->
  let e := vadd p2 (rotate h a3 p3) in
  let f := a2 + a3 + a4 in
  ~ on_axis ez (rotate ez a1 (vadd p1 (vadd (rotate h a2 e) (rotate h f p4)))) -> ~ on_axis h e ->
  clear_move h a2 e -> eps <= sin a5 * sin a5 -> clear_move h f (rotate (vneg ez) a5 h) -> clear_move h a6 (vneg ez) ->
  allowed r 0 a1 -> allowed r 1 a2 -> allowed r 2 a3 -> allowed r 3 a4 -> allowed r 5 a6 ->
  Forall (fun a => Rabs a < 3 / 2 * PI) [a1; a2; a3; a6] -> ur_limits r ->
  exists q1 q2 q3 q4 q5 q6, path_ur z ez h h h (vneg ez) h p0 p1 p2 p3 p4 A p04 q1 q2 q3 q4 q5 q6 /\
    turns_eq [q1; q2; q3; q4; q5; q6] [a1; a2; a3; a4; a5; a6].
Proof.
  intros RC O2 O3 Q e f Oc Oe C2 S5 C4 C6 L1 L2 L3 L4 L6 B UL. pose proof PI_pos as PP.
  pose proof (ur_wf _ _ _ _ _ _ _ _ _ U) as WF. pose proof (ur_types _ _ _ _ _ _ _ _ _ U) as TY.
  assert (LE : forall j, (j < 6)%nat -> forall ls us, rlower r = Some ls -> rupper r = Some us -> (j < length ls)%nat /\ (j < length us)%nat).
  { intros j J ls us El Eu. rewrite (wf_lower r WF ls El), (wf_upper r WF us Eu), TY. auto. }
  destruct (path_ur_core z (fun _ => ang_eq) a1 a2 a3 a4 a5 a6) as (q1 & q2 & q3 & q4 & q5 & q6 & PT & K1 & K2 & K3 & K4 & K5 & K6); auto.
  - intros. apply normalize_gets; auto. rewrite TY. auto.
  - intros t4 t2 q2 t3 q3 R4 R2 M2 M3 K2 K3 K4'.
    assert (X4 : exists q4, normalize z 3 (t4 - q2 - q3) = Ok (Some q4)).
    { destruct UL as [NL|(UL1 & UL2 & UL3)].
      - exists (t4 - q2 - q3). apply normalize_free; auto.
      - assert (X : no_limits r \/ exists ls us, rlower r = Some ls /\ rupper r = Some us).
        { unfold no_limits. destruct (rlower r), (rupper r); eauto 6. }
        destruct X as [X|(ls & us & El & Eu)]; [exists (t4 - q2 - q3); apply normalize_free; auto|].
        assert (LI : forall j, (j < 6)%nat -> exists l u, limits_of r j l u).
        { intros j J. destruct (LE j J ls us El Eu) as [Ll Lu].
          destruct (nth_error ls j) as [l|] eqn:Nl; [|apply nth_error_None in Nl; lia].
          destruct (nth_error us j) as [u|] eqn:Nu; [|apply nth_error_None in Nu; lia]. exists l, u, ls, us. auto. }
        destruct (normalize_allowed _ _ _ _ _ M3) as [_ Al3]. destruct (normalize_allowed _ _ _ _ _ M2) as [_ Al2].
        assert (Bq3 : - PI < q3 < PI). { destruct (LI 2%nat) as (l & u & L); [lia|]. specialize (Al3 l u L). destruct (UL2 l u L). lra. }
        assert (Bq2 : - PI <= q2 <= PI).
        { destruct (LI 1%nat) as (l & u & L); [lia|]. specialize (Al2 l u L). destruct (UL1 l u L) as [[X Y]|[X Y]]; [lra|].
          assert (Al : allowed r 1 t2).
          { intros l' u' (ls' & us' & J1 & J2 & J3 & J4). destruct L as (ls'' & us'' & J5 & J6 & J7 & J8).
            rewrite J5 in J1; inversion J1; subst ls''. rewrite J6 in J2; inversion J2; subst us''. rewrite J7 in J3. rewrite J8 in J4. inversion J3; inversion J4; subst. lra. }
          unfold z in M2. rewrite (normalize_same r 1 t2) in M2; auto. inversion M2; subst. lra.
          apply LE; lia. }
        destruct (LI 3%nat) as (l & u & L); [lia|].
        assert (exists y, allowed r 3 y /\ ang_eq (t4 - q2 - q3) y /\ Rabs (t4 - q2 - q3 - y) < 4 * PI) as (y & Y1 & Y2 & Y3).
        { destruct (UL3 l u L) as [[X Y]|[X Y]].
          - exists a4. split; auto. split; auto. specialize (L4 l u L). apply Rabs_def1; lra.
          - destruct (three_turns (t4 - q2 - q3)) as (y & Y1 & Y2 & Y3); [lra|]. exists y. split; [|split; auto; lra].
            intros l' u' (ls' & us' & J1 & J2 & J3 & J4). destruct L as (ls'' & us'' & J5 & J6 & J7 & J8).
            rewrite J5 in J1; inversion J1; subst ls''. rewrite J6 in J2; inversion J2; subst us''. rewrite J7 in J3. rewrite J8 in J4. inversion J3; inversion J4; subst. lra. }
        destruct (normalize_gets r 3 (t4 - q2 - q3) y) as (q4 & M4 & _); auto. rewrite TY. simpl. lia. exists q4. exact M4. }
    destruct X4 as [q4 M4]. exists q4. split; auto. apply normalize_ang in M4. eapply ang_eq_trans; eauto.
  - exists q1, q2, q3, q4, q5, q6. split; auto. unfold turns_eq. destruct K5. repeat apply Forall2_cons; auto.
Qed.
End UrComplete.
