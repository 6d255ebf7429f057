(** Facts about robot6_sphericalwrist_invkin. *)
From Coq Require Import Reals ZArith List Bool Lia Lra Psatz Sorting.Permutation Sorting.Sorted.
From Verif Require Import LinAlg RealAux Py FactsReal FactsLinAlg ModelRot SpecRot FactsRot
  ModelTransform ModelRobot ModelKin SpecKin FactsKin FactsJac ModelSub SpecSub FactsSub ModelInvkin SpecInvkin FactsInvkin FactsIkGeo.
Import ListNotations.
Open Scope R_scope.

(** What a vector [q1..q6] found by the nested loops went through. *)
Definition path6 (z : normalizer) (h0 h1 h2 h3 h4 h5 P0 P1 P2 P3 P6 : vec3) (A : mat3) (pT : vec3) (q1 q2 q3 q4 q5 q6 : R) : Prop :=
  exists t1 Q3 t3 t2 Q45 t4 t5 t6,
  let w := vsub (mvec (mT (rot h0 q1)) (vsub pT (mvec A P6))) (vadd P0 P1) in
  let p2 := vadd P2 (mvec (rot h2 q3) P3) in
  let R03 := mmul (mmul (rot h0 q1) (rot h1 q2)) (rot h2 q3) in
  let R36 := mmul (mT R03) A in
  let R05 := mmul R03 (mmul (rot h3 q4) (rot h4 q5)) in
  (In (Fin t1) (subproblem4 ey (vsub pT (mvec A P6)) (vneg h0) (dot ey (vadd (vadd P1 P2) P3))) /\ normalize z 0 t1 = Ok (Some q1)) /\
  (subproblem3 P3 P2 h2 (norm w) = Ok Q3 /\ In t3 Q3 /\ normalize z 2 t3 = Ok (Some q3)) /\
  (subproblem1 p2 w h1 = Ok t2 /\ normalize z 1 t2 = Ok (Some q2)) /\
  (subproblem2 h5 (mvec R36 h5) h3 h4 = Ok Q45 /\ In (t4, t5) Q45 /\ normalize z 3 t4 = Ok (Some q4) /\ normalize z 4 t5 = Ok (Some q5)) /\
  (subproblem1 h4 (mvec (mmul (mT R05) A) h4) h5 = Ok t6 /\ normalize z 5 t6 = Ok (Some q6)).

Section Robot6.
Context (argsort : list (flt R) -> list nat) (SP : argsort_spec argsort).

Lemma call1_in z j theta res : call1 argsort z j theta = Ok res ->
  (forall x, In x res -> exists t, In t theta /\ normalize z j t = Ok (Some x)) /\
  (nlast z = None -> forall t x, In t theta -> normalize z j t = Ok (Some x) -> In x res).
Proof.
  intros E. apply candidates_incl in E as (normed & F & I & N); auto. split.
  - intros x Ix. apply I in Ix. apply (filter_out_in _ _ _ F). auto.
  - intros L t x It Nx. rewrite (N L). apply (filter_out_in _ _ _ F). eauto.
Qed.
Lemma call_flt_in z j theta res : call_flt argsort z j theta = Ok res ->
  (forall x, In x res -> exists t, In t theta /\ normalize_flt z j t = Ok (Some x)) /\
  (nlast z = None -> forall t x, In t theta -> normalize_flt z j t = Ok (Some x) -> In x res).
Proof.
  intros E. apply candidates_incl in E as (normed & F & I & N); auto. split.
  - intros x Ix. apply I in Ix. apply (filter_out_in _ _ _ F). auto.
  - intros L t x It Nx. rewrite (N L). apply (filter_out_in _ _ _ F). eauto.
Qed.
Lemma call2_in z j theta res : call2 argsort z j theta = Ok res ->
  (forall x, In x res -> exists t, In t theta /\ normalize_pair z j t = Ok (Some x)) /\
  (nlast z = None -> forall t x, In t theta -> normalize_pair z j t = Ok (Some x) -> In x res).
Proof.
  intros E. apply candidates_incl in E as (normed & F & I & N); auto. split.
  - intros x Ix. apply I in Ix. apply (filter_out_in _ _ _ F). auto.
  - intros L t x It Nx. rewrite (N L). apply (filter_out_in _ _ _ F). eauto.
Qed.

(** near last_joints, or no last_joints *)
Definition near_last (last : option (list R)) (j : nat) (q : R) : Prop :=
  match last with None => True | Some l => Rabs (q - nth j l 0) < PI / 2 end.
Lemma call1_keep z j theta res t x : call1 argsort z j theta = Ok res -> In t theta -> normalize z j t = Ok (Some x) -> near_last (nlast z) j x -> In x res.
Proof.
  intros E I N NR. apply (candidates_keep argsort SP _ _ _ _ _ _ t x E I N). unfold near_last, last_of_joint in *. destruct (nlast z); auto.
  right. apply Rltb_true. auto.
Qed.
Lemma call_flt_keep z j theta res t x : call_flt argsort z j theta = Ok res -> In (Fin t) theta -> normalize z j t = Ok (Some x) -> near_last (nlast z) j x -> In (Fin x) res.
Proof.
  intros E I N NR. apply (candidates_keep argsort SP _ _ _ _ _ _ (Fin t) (Fin x) E I). simpl. rewrite N. reflexivity.
  unfold near_last, last_of_joint in *. destruct (nlast z); auto.
  right. apply Rltb_true. auto.
Qed.
Lemma call2_keep z j theta res t x : call2 argsort z j theta = Ok res -> In t theta -> normalize_pair z j t = Ok (Some x) ->
  near_last (nlast z) (fst j) (fst x) -> near_last (nlast z) (snd j) (snd x) -> In x res.
Proof.
  intros E I N N1 N2. apply (candidates_keep argsort SP _ _ _ _ _ _ t x E I N). unfold near_last, last_of_joint in *. destruct (nlast z); auto.
  right. apply andb_true_iff. rewrite !Rltb_true. auto.
Qed.

Section Solve.
Context (r : robot) (h0 h1 h2 h3 h4 h5 P0 P1 P2 P3 P4 P5 P6 : vec3) (pose : transform) (last : option (list R)).
Context (HH : rH r = [h0; h1; h2; h3; h4; h5]).
Let P := [P0; P1; P2; P3; P4; P5; P6].
Let z := normalize_joints r last false.

(** the list before it is sorted *)
Definition robot6_sols : out (list (list R)) :=
  let* N1 := call_flt argsort z 0 (subproblem4 ey (vsub (tp pose) (mvec (tR pose) P6)) (vneg h0) (dot ey (vadd (vadd P1 P2) P3))) in
  flat_map_out (robot6_arm argsort z [h0; h1; h2; h3; h4; h5] P (tR pose) (tp pose)) N1.
Lemma robot6_solve_sols : robot6_solve argsort r P pose last = let* sols := robot6_sols in sort_solutions argsort last sols.
Proof.
  unfold robot6_solve, robot6_sols. rewrite HH. unfold P, index. cbn [nth_error bind]. fold z. cbv zeta. fold P.
  destruct (call_flt argsort z 0 _); reflexivity.
Qed.
Lemma robot6_sols_path sols q : robot6_sols = Ok sols -> In q sols ->
  exists q1 q2 q3 q4 q5 q6, q = [q1; q2; q3; q4; q5; q6] /\ path6 z h0 h1 h2 h3 h4 h5 P0 P1 P2 P3 P6 (tR pose) (tp pose) q1 q2 q3 q4 q5 q6.
Proof.
  unfold robot6_sols. intros ES I.
  destruct (call_flt argsort z 0 _) as [N1|] eqn:E1; [|discriminate]. cbn [bind] in ES.
  apply (flat_map_out_in _ _ _ ES) in I as (fq1 & ys & I1 & F1 & Iq). clear ES.
  destruct (call_flt_in _ _ _ _ E1) as [C1 _]. apply C1 in I1 as (ft1 & I1 & M1). clear C1 E1.
  destruct fq1 as [q1|]; [|discriminate].
  apply normalize_flt_some in M1 as (t1 & -> & M1).
  unfold robot6_arm, P, index in F1. cbn [nth_error bind] in F1. cbv zeta in F1.
  set (w := vsub (mvec (mT (rot h0 q1)) _) (vadd P0 P1)) in *.
  destruct (subproblem3 P3 P2 h2 (norm w)) as [Q3|] eqn:E3; [|discriminate]. cbn [bind] in F1.
  destruct (call1 argsort z 2 Q3) as [N3|] eqn:C3; [|discriminate]. cbn [bind] in F1.
  apply (flat_map_out_in _ _ _ F1) in Iq as (q3 & ys3 & I3 & F3 & Iq). clear F1.
  destruct (call1_in _ _ _ _ C3) as [D3 _]. apply D3 in I3 as (t3 & I3 & M3). clear D3 C3.
  set (p2 := vadd P2 _) in *.
  destruct (subproblem1 p2 w h1) as [t2|] eqn:E2; [|discriminate]. cbn [bind] in F3.
  destruct (normalize z 1 t2) as [[q2|]|] eqn:M2; [| |discriminate]; cbn [bind] in F3; [|inversion F3; subst; destruct Iq].
  unfold robot6_wrist in F3. cbv zeta in F3.
  set (R03 := mmul (mmul (rot h0 q1) (rot h1 q2)) (rot h2 q3)) in *.
  destruct (subproblem2 h5 _ h3 h4) as [Q45|] eqn:E45; [|discriminate]. cbn [bind] in F3.
  destruct (call2 argsort z (3%nat, 4%nat) Q45) as [N45|] eqn:C45; [|discriminate]. cbn [bind] in F3.
  apply (flat_map_out_in _ _ _ F3) in Iq as ([q4 q5] & ys45 & I45 & F45 & Iq). clear F3.
  destruct (call2_in _ _ _ _ C45) as [D45 _]. apply D45 in I45 as ([t4 t5] & I45 & M45). clear D45 C45.
  apply normalize_pair_some in M45 as [M4 M5]. cbn [fst snd] in M4, M5.
  destruct (subproblem1 h4 _ h5) as [t6|] eqn:E6; [|discriminate]. cbn [bind] in F45.
  destruct (normalize z 5 t6) as [[q6|]|] eqn:M6; [| |discriminate]; cbn [bind] in F45; inversion F45; subst ys45; [|destruct Iq].
  destruct Iq as [<-|[]]. exists q1, q2, q3, q4, q5, q6. split; auto.
  exists t1, Q3, t3, t2, Q45, t4, t5, t6. cbv zeta. auto 20.
Qed.
Lemma robot6_sols_in sols q1 q2 q3 q4 q5 q6 :
  near_last last 0 q1 -> near_last last 2 q3 -> near_last last 3 q4 -> near_last last 4 q5 -> robot6_sols = Ok sols ->
  path6 z h0 h1 h2 h3 h4 h5 P0 P1 P2 P3 P6 (tR pose) (tp pose) q1 q2 q3 q4 q5 q6 -> In [q1; q2; q3; q4; q5; q6] sols.
Proof.
  intros L1 L3 L4 L5 E (t1 & Q3 & t3 & t2 & Q45 & t4 & t5 & t6 & PT). cbv zeta in PT.
  destruct PT as ((I1 & M1) & (E3 & I3 & M3) & (E2 & M2) & (E45 & I45 & M4 & M5) & (E6 & M6)).
  revert E. unfold robot6_sols. destruct (call_flt argsort z 0 _) as [N1|] eqn:E1; [|discriminate]. cbn [bind]. intros ES.
  apply (flat_map_out_in _ _ _ ES). 
  pose proof (call_flt_keep _ _ _ _ _ _ E1 I1 M1 L1) as C1.
  destruct (flat_map_out_ok _ _ _ ES _ C1) as [ys F1]. exists (Fin q1), ys. split; auto. split; auto.
  revert F1. unfold robot6_arm, P, index. cbn [nth_error bind]. cbv zeta. rewrite E3. cbn [bind].
  destruct (call1 argsort z 2 Q3) as [N3|] eqn:C3; [|discriminate]. cbn [bind]. intros F1.
  apply (flat_map_out_in _ _ _ F1).
  pose proof (call1_keep _ _ _ _ _ _ C3 I3 M3 L3) as D3.
  destruct (flat_map_out_ok _ _ _ F1 _ D3) as [ys3 F3]. exists q3, ys3. split; auto. split; auto.
  revert F3. rewrite E2. cbn [bind]. rewrite M2. cbn [bind]. unfold robot6_wrist. cbv zeta. rewrite E45. cbn [bind].
  destruct (call2 argsort z (3%nat, 4%nat) Q45) as [N45|] eqn:C45; [|discriminate]. cbn [bind]. intros F3.
  apply (flat_map_out_in _ _ _ F3).
  assert (D45 : In (q4, q5) N45).
  { apply (call2_keep _ _ _ _ (t4, t5) (q4, q5) C45); auto. apply normalize_pair_some. auto. }
  destruct (flat_map_out_ok _ _ _ F3 _ D45) as [ys6 F6]. exists (q4, q5), ys6. split; auto. split; auto.
  revert F6. rewrite E6. cbn [bind]. rewrite M6. cbn [bind]. intros E; inversion E. simpl; auto.
Qed.
Lemma robot6_path res q : robot6_solve argsort r P pose last = Ok res -> In q res ->
  exists q1 q2 q3 q4 q5 q6, q = [q1; q2; q3; q4; q5; q6] /\ path6 z h0 h1 h2 h3 h4 h5 P0 P1 P2 P3 P6 (tR pose) (tp pose) q1 q2 q3 q4 q5 q6.
Proof.
  rewrite robot6_solve_sols. destruct robot6_sols as [sols|] eqn:ES; [|discriminate]. cbn [bind]. intros E I.
  rewrite (sort_in argsort SP last sols res E q) in I. eapply robot6_sols_path; eauto.
Qed.
Lemma robot6_path_in res q1 q2 q3 q4 q5 q6 :
  near_last last 0 q1 -> near_last last 2 q3 -> near_last last 3 q4 -> near_last last 4 q5 -> robot6_solve argsort r P pose last = Ok res ->
  path6 z h0 h1 h2 h3 h4 h5 P0 P1 P2 P3 P6 (tR pose) (tp pose) q1 q2 q3 q4 q5 q6 -> In [q1; q2; q3; q4; q5; q6] res.
Proof.
  intros L1 L3 L4 L5. rewrite robot6_solve_sols. destruct robot6_sols as [sols|] eqn:ES; [|discriminate]. cbn [bind]. intros E PT.
  rewrite (sort_in argsort SP last sols res E). eapply robot6_sols_in; eauto.
Qed.
(** ... and then sorting does not fail *)
Lemma robot6_path_sorts q1 q2 q3 q4 q5 q6 : (forall l, last = Some l -> length l = 6%nat) ->
  near_last last 0 q1 -> near_last last 2 q3 -> near_last last 3 q4 -> near_last last 4 q5 ->
  path6 z h0 h1 h2 h3 h4 h5 P0 P1 P2 P3 P6 (tR pose) (tp pose) q1 q2 q3 q4 q5 q6 ->
  (exists res, robot6_solve argsort r P pose last = Ok res) \/ (exists e, robot6_sols = Err e /\ robot6_solve argsort r P pose last = Err e).
Proof.
  intros LL L1 L3 L4 L5 PT. rewrite robot6_solve_sols. destruct robot6_sols as [sols|e] eqn:ES; [left|right; eauto]. cbn [bind].
  pose proof (robot6_sols_in sols _ _ _ _ _ _ L1 L3 L4 L5 ES PT) as I.
  apply (sort_some argsort SP last sols 6 _ LL I). intros s Is.
  destruct (robot6_sols_path sols s ES Is) as (a1 & a2 & a3 & a4 & a5 & a6 & -> & _). reflexivity.
Qed.
End Solve.
End Robot6.

(** *** The in-place correction *)
Lemma vzerob_iff v : vzerob v = true <-> v = vzero.
Proof.
  unfold vzerob. rewrite !andb_true_iff, !Reqb_true. split.
  - intros [[A B] C]. destruct v; simpl in *; subst; reflexivity.
  - intros ->. simpl. auto.
Qed.
Lemma vzerob_false v : vzerob v = false <-> v <> vzero.
Proof. rewrite <- vzerob_iff. destruct (vzerob v); split; intros; auto; try discriminate. tauto. Qed.

Lemma opw_correct r h0 h1 h2 h3 h4 h5 p0 p1 p2 p3 p4 p5 p6 : opw r h0 h1 h2 h3 h4 h5 p0 p1 p2 p3 p4 p5 p6 ->
  correct_P (rH r) (rP r) = ([p0; p1; p2; vadd p3 p4; vzero; vzero; vadd p6 p5], Ok tt).
Proof.
  intros O. rewrite (opw_H _ _ _ _ _ _ _ _ _ _ _ _ _ _ O), (opw_P _ _ _ _ _ _ _ _ _ _ _ _ _ _ O).
  pose proof (opw_p4 _ _ _ _ _ _ _ _ _ _ _ _ _ _ O) as O4. pose proof (opw_p5 _ _ _ _ _ _ _ _ _ _ _ _ _ _ O) as O5.
  unfold on_axis, perp in O4, O5.
  unfold correct_P, correct4, correct5, index. cbn [nth_error].
  destruct (vzerob p4) eqn:Z4; [|rewrite (proj2 (vzerob_iff _) O4)]; cbn [nth_error set_nth firstn skipn app nth];
  (destruct (vzerob p5) eqn:Z5; [|rewrite (proj2 (vzerob_iff _) O5)]); cbn [nth_error set_nth firstn skipn app nth];
  rewrite ?vzerob_iff in *; subst; rewrite ?vadd_0_r; auto.
Qed.

Lemma on_axis_rot k t v : on_axis k v -> mvec (rot k t) v = v.
Proof.
  intros O. unfold on_axis in O. rewrite (perp_decomp k v), O, vadd_0_r, mvec_vscale, rot_axis. reflexivity.
Qed.
(** The point in the wrist frame, with the corrected link vectors *)
Lemma opw_point r h0 h1 h2 h3 h4 h5 p0 p1 p2 p3 p4 p5 p6 q1 q2 q3 q4 q5 q6 x :
  opw r h0 h1 h2 h3 h4 h5 p0 p1 p2 p3 p4 p5 p6 ->
  let y := act_opt (rflange r) (act_tool r x) in
  robot_point r [q1; q2; q3; q4; q5; q6] x =
  act_opt (rbase r) (vadd p0 (mvec (rot h0 q1) (vadd p1 (mvec (rot h1 q2) (vadd p2 (mvec (rot h2 q3) (vadd (vadd p3 p4)
    (mvec (rot h3 q4) (mvec (rot h4 q5) (mvec (rot h5 q6) (vadd (vadd p6 p5) y))))))))))).
Proof.
  intros O y. unfold robot_point. fold y.
  rewrite (opw_types _ _ _ _ _ _ _ _ _ _ _ _ _ _ O), (opw_H _ _ _ _ _ _ _ _ _ _ _ _ _ _ O), (opw_P _ _ _ _ _ _ _ _ _ _ _ _ _ _ O).
  pose proof (wf_unit _ (opw_wf _ _ _ _ _ _ _ _ _ _ _ _ _ _ O)) as U. rewrite (opw_H _ _ _ _ _ _ _ _ _ _ _ _ _ _ O) in U.
  repeat match goal with H : Forall _ (_ :: _) |- _ => inversion H; clear H; subst end.
  cbn [chain hd tl joint_motion]. rewrite <- !rot_rotate by auto.
  pose proof (on_axis_rot h3 q4 p4 (opw_p4 _ _ _ _ _ _ _ _ _ _ _ _ _ _ O)) as A4.
  pose proof (on_axis_rot h5 q6 p5 (opw_p5 _ _ _ _ _ _ _ _ _ _ _ _ _ _ O)) as A5.
  do 7 f_equal. rewrite !mvec_vadd, A4, A5.
  generalize (mvec (rot h5 q6) p6), (mvec (rot h5 q6) y). intros a b.
  generalize (mvec (rot h3 q4) (mvec (rot h4 q5) p5)), (mvec (rot h3 q4) (mvec (rot h4 q5) a)), (mvec (rot h3 q4) (mvec (rot h4 q5) b)).
  clear. intros; la_ring.
Qed.

Lemma normalize_ang z j t q : normalize z j t = Ok (Some q) -> ang_eq q t.
Proof. intros E. destruct (normalize_some _ _ _ _ E) as (lu & _ & A & _). exact A. Qed.
Lemma subproblem4_in p q k d t : In (Fin t) (subproblem4 p q k d) -> dot p (mvec (rot k t) q) = d.
Proof.
  intros I. destruct (subproblem4_cases p q k d) as [[E _]|[[E _]|[[E _]|(s1 & s2 & E & _ & _ & S1 & S2 & _ & _)]]]; rewrite E in I; simpl in I.
  - tauto.
  - destruct I as [I|[I|[]]]; discriminate.
  - destruct I as [I|[I|[]]]; discriminate.
  - destruct I as [I|[I|[]]]; inversion I; subst; auto.
Qed.
Lemma vy_dot v : dot ey v = vy v.
Proof. destruct v. unfold dot, ey; simpl. ring. Qed.
Lemma ey_line h : h = ey \/ h = vneg ey -> unit3 h.
Proof. intros [->| ->]; unfold unit3, norm2, dot, vneg, ey; simpl; ring. Qed.
Lemma ey_same h1 h2 : h1 = ey \/ h1 = vneg ey -> h2 = ey \/ h2 = vneg ey -> same_line h1 h2.
Proof. intros [->| ->] [->| ->]; unfold same_line; rewrite ?vneg_vneg; auto. Qed.

(** Soundness of one path: the chain reaches the target up to the tolerances of the subproblems *)
Lemma path6_sound z h0 h1 h2 h3 h4 h5 P0 P1 P2 P3 P6 A pT q1 q2 q3 q4 q5 q6 :
  unit3 h0 -> unit3 h3 -> unit3 h4 -> h1 = ey \/ h1 = vneg ey -> h2 = ey \/ h2 = vneg ey ->
  on_axis h0 P0 -> vy P0 = 0 -> dot h3 h4 = 0 -> h5 = h3 \/ h5 = vneg h3 -> is_SO3 A ->
  path6 z h0 h1 h2 h3 h4 h5 P0 P1 P2 P3 P6 A pT q1 q2 q3 q4 q5 q6 ->
  let got u := vadd P0 (mvec (rot h0 q1) (vadd P1 (mvec (rot h1 q2) (vadd P2 (mvec (rot h2 q3) (vadd P3
    (mvec (rot h3 q4) (mvec (rot h4 q5) (mvec (rot h5 q6) u))))))))) in
  let want u := vadd (vsub pT (mvec A P6)) (mvec A u) in
  (forall u, norm (vsub (got u) (want u)) <= Rmax 1 (norm P3) * sqrt_eps + 7 * sqrt_eps * norm u) /\
  (sqrt_eps <= norm (vsub (dir (perp ey P3)) (dir (perp ey P2))) ->
   ~ ang_eq q2 0 -> ~ ang_eq q4 0 -> ~ ang_eq q5 0 -> ~ ang_eq q6 0 -> forall u, got u = want u).
Proof.
  intros U0 U3 U4 L1 L2 O0 Y0 P34 L5 SA (t1 & Q3 & t3 & t2 & Q45 & t4 & t5 & t6 & PT) got want. cbv zeta in PT.
  set (v1 := vsub pT (mvec A P6)) in *.
  set (w := vsub (mvec (mT (rot h0 q1)) v1) (vadd P0 P1)) in *.
  set (R03 := mmul (mmul (rot h0 q1) (rot h1 q2)) (rot h2 q3)) in *.
  destruct PT as ((I1 & M1) & (E3 & I3 & M3) & (E2 & M2) & (E45 & I45 & M4 & M5) & (E6 & M6)).
  apply normalize_ang in M1, M2, M3, M4, M5, M6.
  pose proof (ey_line _ L1) as U1. pose proof (ey_line _ L2) as U2. pose proof (ey_same _ _ L1 L2) as SL.
  assert (U5 : unit3 h5) by (apply (same_line_unit h3); auto).
  assert (S03 : is_SO3 R03) by (unfold R03; auto 6 using SO3_mmul, rot_SO3).
  assert (D : dot ey w = dot ey (vadd P2 P3)).
  { apply subproblem4_in in I1. rewrite rot_neg, <- rot_T in I1. unfold w. rewrite (rot_ang_eq h0 q1 t1) by auto.
    rewrite dot_vsub_r, I1, !dot_vadd_r, !vy_dot, Y0. ring. }
  assert (D1 : dot h1 w = dot h1 (vadd P2 P3)) by (destruct L1 as [->| ->]; rewrite ?dot_vneg_l, D; auto).
  assert (P45 : dot h4 h5 = 0) by (destruct L5 as [->| ->]; rewrite ?dot_vneg_r, dot_comm, P34; ring).
  set (R36 := mmul (mT R03) A) in *.
  assert (S36 : is_SO3 R36) by (unfold R36; auto using SO3_mmul, SO3_T).
  assert (G : eps <= cone_gap h5 (mvec R36 h5) h3 h4).
  { rewrite wrist_gap by auto. destruct (Rlt_le_dec (1 - dot (mvec R36 h5) h3 * dot (mvec R36 h5) h3) eps) as [L|L]; auto.
    rewrite (wrist_singular h3 h4 h5 (mvec R36 h5)) in E45; auto using SO3_unit. discriminate. }
  assert (E6' : subproblem1 h4 (mvec (mmul (mT (mmul (rot h3 q4) (rot h4 q5))) R36) h4) h5 = Ok t6).
  { unfold R36. rewrite <- mmul_assoc, <- mT_mmul. exact E6. }
  destruct (wrist_sound h3 h4 h5 R36 Q45 t4 t5 q4 q5 t6 q6 U3 U4 U5 S36 P45) as [WB WE]; auto.
  { rewrite P34. pose proof eps_small. lra. }
  destruct (arm_sound h1 h2 P2 P3 w Q3 t3 q3 t2 q2 U1 SL D1 E3 I3 M3 E2 M2) as [AB _].
  pose proof (arm_exact h1 h2 P2 P3 w Q3 t3 q3 t2 q2 U1 SL D1 E3 I3 M3 E2 M2) as AE.
  set (a := mvec (rot h1 q2) (vadd P2 (mvec (rot h2 q3) P3))) in *.
  assert (K : forall u, vsub (got u) (want u) = vadd (mvec (rot h0 q1) (vsub a w))
     (mvec R03 (vsub (mvec (rot h3 q4) (mvec (rot h4 q5) (mvec (rot h5 q6) u))) (mvec R36 u)))).
  { intros u. unfold got, want, a, w. generalize (mvec (rot h3 q4) (mvec (rot h4 q5) (mvec (rot h5 q6) u))). intros W.
    rewrite !mvec_vsub, !mvec_vadd. rewrite (SO3_vec_T (rot h0 q1)) by auto using rot_SO3.
    replace (mvec R03 (mvec R36 u)) with (mvec A u) by (unfold R36; rewrite (mvec_mmul (mT R03) A u), (SO3_vec_T R03) by auto; reflexivity).
    rewrite (on_axis_rot h0 q1 P0 O0). unfold R03. rewrite !mvec_mmul.
    generalize (mvec (rot h0 q1) P1), (mvec (rot h0 q1) (mvec (rot h1 q2) P2)), (mvec (rot h0 q1) (mvec (rot h1 q2) (mvec (rot h2 q3) P3))),
     (mvec (rot h0 q1) (mvec (rot h1 q2) (mvec (rot h2 q3) W))), (mvec A u). clear. intros. la_ring. }
  split.
  - intros u. rewrite K. eapply Rle_trans; [apply norm_triangle|]. rewrite !SO3_norm by auto using rot_SO3. apply Rplus_le_compat; auto.
  - intros Q N2 N4 N5 N6 u. apply vsub_0. rewrite K, WE by auto. rewrite AE; auto.
    + rewrite !vsub_self, !mvec_vzero. apply vadd_0_l.
    + destruct L1 as [->| ->]; auto. rewrite !perp_neg. auto.
Qed.

(** *** The whole call *)
Lemma act_opt_dist (T : option transform) a b : rigid_opt T -> norm (vsub (act_opt T a) (act_opt T b)) = norm (vsub a b).
Proof. destruct T; simpl; auto. intros; apply act_dist; auto. Qed.
Lemma pose_split r pose x : wf_aux r ->
  act pose x = act_opt (rbase r) (vadd (mvec (tR (unapply_aux r pose)) (point6 r x)) (tp (unapply_aux r pose))).
Proof.
  intros W. rewrite <- (proj1 (same_motion_act _ _) (apply_unapply r pose W) x). rewrite act_apply_aux. reflexivity.
Qed.
Lemma point6_onto r u : wf_aux r -> exists x, point6 r x = u.
Proof.
  intros W. exists (act_opt (option_map tinv (tool_transform r)) (act_opt (option_map tinv (rflange r)) u)).
  unfold point6. rewrite <- act_tool_transform. rewrite (proj2 (act_opt_inv_l (tool_transform r) _ (rigid_tool r W))).
  apply (act_opt_inv_l (rflange r) _ (wf_flange r W)).
Qed.
Lemma act_opt_inj (T : option transform) a b : rigid_opt T -> act_opt T a = act_opt T b -> a = b.
Proof.
  intros H E. apply vsub_0, norm_zero. rewrite <- (act_opt_dist T a b H), E, vsub_self. apply norm_vzero.
Qed.

Section Whole.
Context (argsort : list (flt R) -> list nat) (SP : argsort_spec argsort).
Context (r : robot) (h0 h1 h2 h3 h4 h5 p0 p1 p2 p3 p4 p5 p6 : vec3) (O : opw r h0 h1 h2 h3 h4 h5 p0 p1 p2 p3 p4 p5 p6).
Context (W : wf_aux r) (pose : transform) (RG : rigid pose) (last : option (list R)).

Lemma opw_units : unit3 h0 /\ unit3 h1 /\ unit3 h2 /\ unit3 h3 /\ unit3 h4 /\ unit3 h5.
Proof.
  pose proof (wf_unit _ (opw_wf _ _ _ _ _ _ _ _ _ _ _ _ _ _ O)) as U. rewrite (opw_H _ _ _ _ _ _ _ _ _ _ _ _ _ _ O) in U.
  repeat match goal with H : Forall _ (_ :: _) |- _ => inversion H; clear H; subst end. auto 10.
Qed.
Lemma robot6_unfold : robot6_sphericalwrist_invkin argsort r pose last =
  (set_P r [p0; p1; p2; vadd p3 p4; vzero; vzero; vadd p6 p5],
   robot6_solve argsort r [p0; p1; p2; vadd p3 p4; vzero; vzero; vadd p6 p5] (unapply_aux r pose) last).
Proof. unfold robot6_sphericalwrist_invkin. rewrite (opw_correct _ _ _ _ _ _ _ _ _ _ _ _ _ _ O). reflexivity. Qed.

Lemma robot6_sound res q : snd (robot6_sphericalwrist_invkin argsort r pose last) = Ok res -> In q res ->
  exists q1 q2 q3 q4 q5 q6, q = [q1; q2; q3; q4; q5; q6] /\
  (forall x, norm (vsub (robot_point r q x) (act pose x)) <=
     (Rmax 1 (norm (vadd p3 p4)) + 7 * norm (vadd (vadd p6 p5) (point6 r x))) * sqrt_eps) /\
  (sqrt_eps <= norm (vsub (dir (perp ey (vadd p3 p4))) (dir (perp ey p2))) ->
   ~ ang_eq q2 0 -> ~ ang_eq q4 0 -> ~ ang_eq q5 0 -> ~ ang_eq q6 0 -> forall x, robot_point r q x = act pose x) /\
  (allowed r 0 q1 /\ allowed r 1 q2 /\ allowed r 2 q3 /\ allowed r 3 q4 /\ allowed r 4 q5 /\ allowed r 5 q6).
Proof.
  rewrite robot6_unfold. cbn [snd]. intros E I.
  destruct opw_units as (U0 & U1 & U2 & U3 & U4 & U5).
  destruct (robot6_path argsort SP r _ _ _ _ _ _ p0 p1 p2 (vadd p3 p4) vzero vzero (vadd p6 p5) _ _ (opw_H _ _ _ _ _ _ _ _ _ _ _ _ _ _ O) res q E I)
    as (q1 & q2 & q3 & q4 & q5 & q6 & -> & PT).
  exists q1, q2, q3, q4, q5, q6. split; auto.
  destruct (path6_sound _ _ _ _ _ _ _ _ _ _ _ _ _ _ q1 q2 q3 q4 q5 q6 U0 U3 U4 (opw_h1 _ _ _ _ _ _ _ _ _ _ _ _ _ _ O)
     (opw_h2 _ _ _ _ _ _ _ _ _ _ _ _ _ _ O) (opw_p0 _ _ _ _ _ _ _ _ _ _ _ _ _ _ O) (opw_p0y _ _ _ _ _ _ _ _ _ _ _ _ _ _ O)
     (opw_34 _ _ _ _ _ _ _ _ _ _ _ _ _ _ O) (opw_35 _ _ _ _ _ _ _ _ _ _ _ _ _ _ O) (rigid_unapply_aux r pose W RG) PT) as [B X].
  assert (WT : forall x, vadd (mvec (tR (unapply_aux r pose)) (point6 r x)) (tp (unapply_aux r pose)) =
     vadd (vsub (tp (unapply_aux r pose)) (mvec (tR (unapply_aux r pose)) (vadd p6 p5))) (mvec (tR (unapply_aux r pose)) (vadd (vadd p6 p5) (point6 r x)))).
  { intros x. rewrite (mvec_vadd _ (vadd p6 p5) (point6 r x)).
    generalize (mvec (tR (unapply_aux r pose)) (vadd p6 p5)), (mvec (tR (unapply_aux r pose)) (point6 r x)), (tp (unapply_aux r pose)).
    clear. intros; la_ring. }
  split; [|split].
  - intros x. rewrite (opw_point r _ _ _ _ _ _ _ _ _ _ _ _ _ _ _ _ _ _ _ x O), (pose_split r pose x W).
    rewrite act_opt_dist by apply (wf_base r W). rewrite WT. eapply Rle_trans; [apply (B (vadd (vadd p6 p5) (point6 r x)))|].
    right. ring.
  - intros Q N2 N4 N5 N6 x. rewrite (opw_point r _ _ _ _ _ _ _ _ _ _ _ _ _ _ _ _ _ _ _ x O), (pose_split r pose x W).
    f_equal. rewrite WT. apply X; auto.
  - destruct PT as (t1 & Q3 & t3 & t2 & Q45 & t4 & t5 & t6 & PT). cbv zeta in PT.
    destruct PT as ((_ & M1) & (_ & _ & M3) & (_ & M2) & (_ & _ & M4 & M5) & (_ & M6)).
    apply normalize_allowed in M1, M2, M3, M4, M5, M6. tauto.
Qed.
End Whole.

(** *** Completeness *)
Lemma turn_moves k e c : unit3 k -> unit3 e -> dot k e = 0 -> perp k c <> vzero ->
  exists t, dot e (mvec (rot k t) c) <> dot e c.
Proof.
  intros Uk Ue P N.
  assert (V : forall t, dot e (mvec (rot k t) c) = dot e c + sin t * dot e (cross k c) + (1 - cos t) * (- dot e (perp k c))).
  { intros t. rewrite rot_rotate by auto. unfold rotate, perp. rewrite !dot_vadd_r, dot_vsub_r, !dot_vscale_r, (dot_comm e k), P. ring. }
  destruct (Req_dec (dot e (perp k c)) 0) as [A|A].
  - destruct (Req_dec (dot e (cross k c)) 0) as [B|B].
    + exfalso. apply N. destruct (basis_expand k e (perp k c) Uk Ue P) as [F _]. rewrite F.
      rewrite (dot_comm _ k), perp_dot, (dot_comm _ e), A by auto.
      replace (dot (perp k c) (cross k e)) with 0. { clear. la_ring. }
      unfold perp. rewrite dot_vsub_l, dot_vscale_l. replace (dot k (cross k e)) with 0 by (clear; la_ring).
      replace (dot c (cross k e)) with (- dot e (cross k c)) by (clear; la_ring). rewrite B. ring.
    + exists (PI / 2). rewrite V, sin_PI2, cos_PI2, A. lra.
  - exists PI. rewrite V, sin_PI, cos_PI. lra.
Qed.
Lemma subproblem2_range p q k1 k2 l t1 t2 : unit3 k1 -> unit3 k2 -> eps <= Rabs (1 - dot k1 k2 * dot k1 k2) ->
  eps <= cone_gap p q k1 k2 -> dot p p = dot q q -> subproblem2 p q k1 k2 = Ok l -> In (t1, t2) l ->
  - PI <= t1 <= PI /\ - PI <= t2 <= PI.
Proof.
  intros U1 U2 H G N E I. destruct (subproblem2_two_ok p q k1 k2 U1 U2 H G N) as (a1 & b1 & a2 & b2 & E' & A1 & B1 & A2 & B2).
  rewrite E in E'. inversion E'; subst l. apply subproblem1_range in A1, B1, A2, B2; auto.
  destruct I as [I|[I|[]]]; inversion I; subst; lra.
Qed.
Lemma normalize_gets r j t a : wf_robot r -> (j < length (rtype r))%nat -> allowed r j a -> ang_eq t a -> Rabs (t - a) < 4 * PI ->
  exists x, normalize (normalize_joints r None false) j t = Ok (Some x) /\ ang_eq x a.
Proof.
  intros W J Al A B. destruct (normalize_found r j t a) as [x E]; auto.
  - intros ls us L U. rewrite (wf_lower r W ls L), (wf_upper r W us U). auto.
  - exists x. split; auto. apply normalize_ang in E. eapply ang_eq_trans; eauto.
Qed.
Lemma subproblem1_gets k a v : unit3 k -> perp k v <> vzero -> clear_move k a v ->
  exists t, subproblem1 v (mvec (rot k a) v) k = Ok t /\ ang_eq t a /\ - PI < t <= PI.
Proof.
  intros U P C. pose proof PI_pos. destruct (Rlt_le_dec (norm (vsub v (mvec (rot k a) v))) sqrt_eps) as [L|L].
  - exists 0. rewrite subproblem1_short by auto. split; auto. split; [|lra]. destruct C as [C|C]; rewrite <- rot_rotate in C by auto.
    + apply (rot_perp_unique k v); auto. rewrite rot_0, mvec_I. auto.
    + rewrite norm_vsub_sym in C. lra.
  - destruct (subproblem1_off v (mvec (rot k a) v) k U L P) as (t & E & Rg & _).
    { rewrite perp_rot_perp by auto. intros Z. apply P, norm_zero. rewrite <- (SO3_norm (rot k a)) by auto using rot_SO3. rewrite Z. apply norm_vzero. }
    exists t. split; auto. split; auto. eapply subproblem1_complete; eauto.
Qed.
Lemma wrist_dot h3 h4 h5 t : unit3 h4 -> h5 = h3 \/ h5 = vneg h3 -> unit3 h3 -> dot h3 h4 = 0 ->
  dot (mvec (rot h4 t) h5) h3 * dot (mvec (rot h4 t) h5) h3 = cos t * cos t.
Proof.
  intros U4 L U3 P. assert (E : dot (mvec (rot h4 t) h3) h3 = cos t).
  { rewrite dot_comm. apply plane_rot_angle; auto. rewrite dot_comm; auto. }
  destruct L as [->| ->]; rewrite ?mvec_vneg, ?dot_vneg_l, E; ring.
Qed.
Lemma chord k t v : unit3 k -> dot k v = 0 -> norm (vsub (mvec (rot k t) v) v) * norm (vsub (mvec (rot k t) v) v) = 2 * (1 - cos t) * dot v v.
Proof.
  intros U P. rewrite norm_sq, rot_dist_sq by auto. rewrite (dot_comm v k), P.
  assert (E : perp k v = v) by (unfold perp; rewrite (dot_comm v k), P; clear; la_ring). rewrite E.
  replace (dot (mvec (rot k t) v) v) with (cos t * dot v v); [ring|].
  rewrite rot_rotate by auto. unfold rotate. rewrite P, !dot_vadd_l, !dot_vscale_l.
  replace (dot (cross k v) v) with 0 by (clear; la_ring). ring.
Qed.

Lemma perp_vadd k a b : perp k (vadd a b) = vadd (perp k a) (perp k b). Proof. unfold perp. la_ring. Qed.
Lemma add_neg v : vadd v (vneg v) = vzero. Proof. la_ring. Qed.
Lemma add_sub v u : vadd v (vsub u v) = u. Proof. la_ring. Qed.
Lemma sub_neg v u : vsub u v = vadd (vneg v) u. Proof. la_ring. Qed.
Lemma sub_back a b c : a = vsub (vadd (vsub a b) c) (vsub c b). Proof. la_ring. Qed.
Lemma chain_diff a b c d e : vsub (vadd a (vadd b (vadd c (vadd d e)))) (vadd a (vadd b (vadd c d))) = e. Proof. la_ring. Qed.
Lemma w_diff a b c : vsub (vadd a (vadd b c)) (vadd a b) = c. Proof. la_ring. Qed.
Section Complete.
Context (r : robot) (h0 h1 h2 h3 h4 h5 p0 p1 p2 p3 p4 p5 p6 : vec3) (O : opw r h0 h1 h2 h3 h4 h5 p0 p1 p2 p3 p4 p5 p6).
Context (W : wf_aux r) (pose : transform) (RG : rigid pose).
Let P3 := vadd p3 p4.
Let P6 := vadd p6 p5.
Let A := tR (unapply_aux r pose).
Let pT := tp (unapply_aux r pose).
Context (z : normalizer) (Kp : nat -> R -> R -> Prop) (KA : forall j x a, Kp j x a -> ang_eq x a).
Context (G : forall j t a, (j < 6)%nat -> allowed r j a -> ang_eq t a -> Rabs (t - a) < 4 * PI -> exists x, normalize z j t = Ok (Some x) /\ Kp j x a).

Lemma reach_split a1 a2 a3 a4 a5 a6 : reaches r [a1; a2; a3; a4; a5; a6] pose ->
  vsub pT (mvec A P6) = vadd p0 (mvec (rot h0 a1) (vadd p1 (mvec (rot h1 a2) (vadd p2 (mvec (rot h2 a3) P3))))) /\
  (forall u, mvec A u = mvec (rot h0 a1) (mvec (rot h1 a2) (mvec (rot h2 a3) (mvec (rot h3 a4) (mvec (rot h4 a5) (mvec (rot h5 a6) u)))))).
Proof.
  intros RC.
  assert (K : forall u, vadd (mvec A u) pT = vadd p0 (mvec (rot h0 a1) (vadd p1 (mvec (rot h1 a2) (vadd p2 (mvec (rot h2 a3) (vadd P3
    (mvec (rot h3 a4) (mvec (rot h4 a5) (mvec (rot h5 a6) (vadd P6 u))))))))))).
  { intros u. destruct (point6_onto r u W) as [x <-]. specialize (RC x).
    rewrite (opw_point r _ _ _ _ _ _ _ _ _ _ _ _ _ _ _ _ _ _ _ x O), (pose_split r pose x W) in RC.
    symmetry. apply (act_opt_inj _ _ _ (wf_base r W) RC). }
  assert (Z : mvec (rot h3 a4) (mvec (rot h4 a5) (mvec (rot h5 a6) vzero)) = vzero) by (rewrite !mvec_vzero; auto).
  assert (C : vsub pT (mvec A P6) = vadd p0 (mvec (rot h0 a1) (vadd p1 (mvec (rot h1 a2) (vadd p2 (mvec (rot h2 a3) P3)))))).
  { specialize (K (vneg P6)). rewrite add_neg in K.
    rewrite Z, vadd_0_r in K. rewrite <- K, mvec_vneg. apply sub_neg. }
  split; auto. intros u. pose proof (K (vsub u P6)) as K1. rewrite add_sub in K1.
  rewrite mvec_vsub in K1.
  rewrite (sub_back (mvec A u) (mvec A P6) pT).
  rewrite K1, C. rewrite !mvec_vadd.
  apply chain_diff.
Qed.

Lemma path6_complete a1 a2 a3 a4 a5 a6 : reaches r [a1; a2; a3; a4; a5; a6] pose ->
  dot h0 ey = 0 -> ~ on_axis ey p2 -> ~ on_axis ey P3 -> sqrt_eps <= norm (vsub (dir (perp ey P3)) (dir (perp ey p2))) ->
  let e := vadd p2 (rotate h2 a3 P3) in
  ~ on_axis h0 (rotate h0 a1 (vadd p1 (rotate h1 a2 e))) -> ~ on_axis h1 e ->
  clear_move h1 a2 e -> eps <= sin a5 * sin a5 -> clear_move h3 a4 (rotate h4 a5 h5) -> clear_move h5 a6 h4 ->
  allowed r 0 a1 -> allowed r 1 a2 -> allowed r 2 a3 -> allowed r 3 a4 -> allowed r 4 a5 -> allowed r 5 a6 ->
  Forall (fun a => Rabs a < 3 / 2 * PI) [a1; a2; a3; a4; a5; a6] ->
  exists q1 q2 q3 q4 q5 q6, path6 z h0 h1 h2 h3 h4 h5 p0 p1 p2 P3 P6 A pT q1 q2 q3 q4 q5 q6 /\
    (Kp 0 q1 a1 /\ Kp 1 q2 a2 /\ Kp 2 q3 a3 /\ Kp 3 q4 a4 /\ Kp 4 q5 a5 /\ Kp 5 q6 a6).
Proof.
  intros RC P0y O2 O3 Q e Oc Oe C2 S5 C4 C6 L1 L2 L3 L4 L5 L6 B. pose proof PI_pos as PP. pose proof eps_pos as EP. pose proof sqrt_eps_pos as SEP.
  destruct (opw_units r _ _ _ _ _ _ _ _ _ _ _ _ _ O) as (U0 & U1 & U2 & U3 & U4 & U5).
  pose proof (opw_wf _ _ _ _ _ _ _ _ _ _ _ _ _ _ O) as WF. pose proof (opw_types _ _ _ _ _ _ _ _ _ _ _ _ _ _ O) as TY.
  pose proof (opw_h1 _ _ _ _ _ _ _ _ _ _ _ _ _ _ O) as H1. pose proof (opw_h2 _ _ _ _ _ _ _ _ _ _ _ _ _ _ O) as H2.
  pose proof (opw_34 _ _ _ _ _ _ _ _ _ _ _ _ _ _ O) as P34. pose proof (opw_35 _ _ _ _ _ _ _ _ _ _ _ _ _ _ O) as H35.
  pose proof (opw_p0 _ _ _ _ _ _ _ _ _ _ _ _ _ _ O) as O0. pose proof (opw_p0y _ _ _ _ _ _ _ _ _ _ _ _ _ _ O) as Y0.
  pose proof (ey_same _ _ H1 H2) as SL.
  assert (P45 : dot h4 h5 = 0) by (destruct H35 as [->| ->]; rewrite ?dot_vneg_r, dot_comm, P34; ring).
  assert (Uey : unit3 ey) by (apply ey_line; auto).
  assert (PE : forall h v, h = ey \/ h = vneg ey -> perp h v = perp ey v) by (intros h v [->| ->]; rewrite ?perp_neg; auto).
  assert (Bs : Rabs a1 < 3 / 2 * PI /\ Rabs a2 < 3 / 2 * PI /\ Rabs a3 < 3 / 2 * PI /\ Rabs a4 < 3 / 2 * PI /\ Rabs a5 < 3 / 2 * PI /\ Rabs a6 < 3 / 2 * PI).
  { repeat match goal with H : Forall _ (_ :: _) |- _ => inversion H; clear H; subst end. auto 10. }
  destruct Bs as (B1 & B2 & B3 & B4 & B5 & B6). clear B.
  apply Rabs_def2 in B1, B2, B3, B4, B5, B6.
  assert (Wd : forall s, dot ey (mvec (rot h1 s) (vadd p2 (mvec (rot h2 a3) P3))) = dot ey (vadd p2 P3)).
  { assert (Sy : forall h s v, h = ey \/ h = vneg ey -> dot ey (mvec (rot h s) v) = dot ey v).
    { intros h s v Hh. apply same_line_dot; auto. }
    intros s. rewrite Sy, !dot_vadd_r, Sy by auto. reflexivity. }
  destruct (reach_split a1 a2 a3 a4 a5 a6 RC) as [C RR]. set (v1 := vsub pT (mvec A P6)) in *.
  unfold e in *. rewrite <- (rot_rotate h2) in * by auto.
  rewrite <- (rot_rotate h1), <- (rot_rotate h0) in Oc by auto.
  set (E := vadd p2 (mvec (rot h2 a3) P3)) in *. clear e.
  assert (OR : mvec (rot h0 a1) p0 = p0) by (apply on_axis_rot; auto).
  assert (V1 : mvec (mT (rot h0 a1)) v1 = vadd p0 (vadd p1 (mvec (rot h1 a2) E))).
  { rewrite C. rewrite <- OR at 1. rewrite <- mvec_vadd, SO3_T_vec by auto using rot_SO3. reflexivity. }
  (* q1 *)
  assert (D1 : dot ey (mvec (rot (vneg h0) a1) v1) = dot ey (vadd (vadd p1 p2) P3)).
  { rewrite rot_neg, <- rot_T, V1, !dot_vadd_r, Wd, dot_vadd_r, (vy_dot p0), Y0. ring. }
  assert (Hc : perp h0 v1 <> vzero).
  { intros Z. apply Oc. unfold on_axis in *. rewrite C, perp_vadd, O0, vadd_0_l in Z. exact Z. }
  destruct (turn_moves (vneg h0) ey v1) as [t0 T0]; auto using unit_neg.
  { rewrite dot_vneg_l, P0y. ring. } { rewrite perp_neg. auto. }
  assert (exists t1, In (Fin t1) (subproblem4 ey v1 (vneg h0) (dot ey (vadd (vadd p1 p2) P3))) /\ ang_eq t1 a1) as (t1 & I1 & A1).
  { destruct (subproblem4_cases ey v1 (vneg h0) (dot ey (vadd (vadd p1 p2) P3))) as [[_ F]|[[_ F]|[[_ F]|(s1 & s2 & F & _ & _ & _ & _ & X & _)]]].
    - specialize (F a1). lra.
    - specialize (F a1). lra.
    - exfalso. apply T0. rewrite F. rewrite <- (F 0), rot_0, mvec_I. auto.
    - rewrite F. destruct (X a1 D1); [exists s1|exists s2]; simpl; auto. }
  pose proof (subproblem4_range _ _ _ _ _ I1) as R1.
  destruct (G 0%nat t1 a1) as (q1 & M1 & KK1); try lia; try (apply Rabs_def1; lra); auto. pose proof (KA _ _ _ KK1) as K1.
  (* q3 *)
  assert (Ew : vsub (mvec (mT (rot h0 q1)) v1) (vadd p0 p1) = mvec (rot h1 a2) E).
  { rewrite (rot_ang_eq h0 q1 a1 K1), V1. apply w_diff. }
  assert (Nw : norm (vadd p2 (mvec (rot h2 a3) P3)) = norm (mvec (rot h1 a2) E)) by (rewrite SO3_norm by auto using rot_SO3; reflexivity).
  destruct (subproblem3_complete h2 P3 p2 _ a3 U2 Nw) as (Q3 & t3 & E3 & I3 & _ & A3).
  { rewrite PE by auto. exact O3. } { rewrite PE by auto. exact O2. }
  assert (A3' : ang_eq t3 a3). { apply A3. rewrite !(PE h2) by auto. exact Q. }
  pose proof (subproblem3_range _ _ _ _ _ _ U2 E3 I3) as R3.
  destruct (G 2%nat t3 a3) as (q3 & M3 & KK3); try lia; try (apply Rabs_def1; lra); auto. pose proof (KA _ _ _ KK3) as K3.
  (* q2 *)
  destruct (subproblem1_gets h1 a2 E U1 Oe C2) as (t2 & E2 & A2 & R2).
  destruct (G 1%nat t2 a2) as (q2 & M2 & KK2); try lia; try (apply Rabs_def1; lra); auto. pose proof (KA _ _ _ KK2) as K2.
  (* wrist *)
  set (R03 := mmul (mmul (rot h0 q1) (rot h1 q2)) (rot h2 q3)).
  assert (S03 : is_SO3 R03) by (unfold R03; auto 6 using SO3_mmul, rot_SO3).
  assert (R36 : forall u, mvec (mmul (mT R03) A) u = mvec (rot h3 a4) (mvec (rot h4 a5) (mvec (rot h5 a6) u))).
  { intros u. rewrite mvec_mmul, RR. rewrite <- (rot_ang_eq h0 q1 a1 K1), <- (rot_ang_eq h1 q2 a2 K2), <- (rot_ang_eq h2 q3 a3 K3).
    rewrite <- (mvec_mmul (rot h1 q2)), <- (mvec_mmul (rot h0 q1)), <- mmul_assoc. fold R03. apply SO3_T_vec; auto. }
  assert (F5 : mvec (rot h3 a4) (mvec (rot h4 a5) h5) = mvec (mmul (mT R03) A) h5) by (rewrite R36, rot_axis; auto).
  assert (HK : eps <= Rabs (1 - dot h3 h4 * dot h3 h4)). { rewrite P34, Rabs_right; pose proof eps_small; lra. }
  assert (GP : eps <= cone_gap h5 (mvec (mmul (mT R03) A) h5) h3 h4).
  { rewrite wrist_gap by auto. rewrite <- F5, rot_dot_axis by auto. rewrite wrist_dot by auto.
    pose proof (sin2_cos2 a5) as SC. unfold Rsqr in SC. lra. }
  destruct (subproblem2_complete h5 _ h3 h4 a4 a5 U3 U4 HK F5 GP) as (Q45 & t4 & t5 & E45 & I45 & A4 & A5).
  assert (A4' : ang_eq t4 a4).
  { destruct A4 as [A4|[-> A4]]; auto. rewrite <- F5 in A4. apply (rot_perp_unique h3 (mvec (rot h4 a5) h5)); auto.
    - intros Z. apply (f_equal (fun v => dot v v)) in Z. rewrite perp_norm, wrist_dot, SO3_dot, dot_00 in Z by auto using rot_SO3.
      pose proof (sin2_cos2 a5) as SC. unfold Rsqr in SC. unfold unit3, norm2 in U5. lra.
    - rewrite rot_0, mvec_I. destruct C4 as [C4|C4]; rewrite <- !rot_rotate in C4 by auto; auto. rewrite norm_vsub_sym in C4. lra. }
  assert (A5' : ang_eq t5 a5).
  { destruct A5 as [A5|[-> A5]]; auto. exfalso.
    pose proof (chord h4 a5 h5 U4 P45) as CH. unfold unit3, norm2 in U5. rewrite U5 in CH.
    pose proof sqrt_eps_sq as SQ.
    pose proof (sin2_cos2 a5) as SC. unfold Rsqr in SC. pose proof (COS_bound a5).
    pose proof (norm_nonneg (vsub (mvec (rot h4 a5) h5) h5)) as N0.
    assert (X1 : eps <= 2 * (1 - cos a5)) by nra.
    revert A5 CH N0. generalize (norm (vsub (mvec (rot h4 a5) h5) h5)). intros n A5 CH N0.
    assert (n * n < sqrt_eps * sqrt_eps) by nra. lra. }
  assert (NP : dot h5 h5 = dot (mvec (mmul (mT R03) A) h5) (mvec (mmul (mT R03) A) h5)).
  { rewrite <- F5, !SO3_dot by auto using rot_SO3. auto. }
  destruct (subproblem2_range _ _ _ _ _ _ _ U3 U4 HK GP NP E45 I45) as [R4 R5].
  destruct (G 3%nat t4 a4) as (q4 & M4 & KK4); try lia; try (apply Rabs_def1; lra); auto. pose proof (KA _ _ _ KK4) as K4.
  destruct (G 4%nat t5 a5) as (q5 & M5 & KK5); try lia; try (apply Rabs_def1; lra); auto. pose proof (KA _ _ _ KK5) as K5.
  (* q6 *)
  assert (R56 : mvec (mmul (mT (mmul R03 (mmul (rot h3 q4) (rot h4 q5)))) A) h4 = mvec (rot h5 a6) h4).
  { rewrite mT_mmul, mmul_assoc, (mvec_mmul (mT (mmul (rot h3 q4) (rot h4 q5)))), R36.
    rewrite <- (rot_ang_eq h3 q4 a4 K4), <- (rot_ang_eq h4 q5 a5 K5).
    rewrite <- (mvec_mmul (rot h3 q4)), SO3_T_vec by auto using SO3_mmul, rot_SO3. reflexivity. }
  assert (P4 : perp h5 h4 <> vzero).
  { intros Z. apply (f_equal (fun v => dot v v)) in Z. rewrite perp_norm, dot_00, P45 in Z by auto. unfold unit3, norm2 in U4. lra. }
  destruct (subproblem1_gets h5 a6 h4 U5 P4 C6) as (t6 & E6 & A6 & R6).
  destruct (G 5%nat t6 a6) as (q6 & M6 & KK6); try lia; try (apply Rabs_def1; lra); auto. pose proof (KA _ _ _ KK6) as K6.
  exists q1, q2, q3, q4, q5, q6. split; [|auto 10].
  exists t1, Q3, t3, t2, Q45, t4, t5, t6. cbv zeta. fold v1. rewrite Ew. fold R03.
  rewrite (rot_ang_eq h2 q3 a3 K3). fold E. rewrite R56. auto 12.
Qed.
End Complete.
