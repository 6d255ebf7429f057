(** When the closed-form inverse kinematics raises, and what it does to the robot. *)
From Coq Require Import Reals ZArith List Bool Lia Lra Psatz Sorting.Permutation Sorting.Sorted.
From Verif Require Import LinAlg RealAux Py FactsReal FactsLinAlg ModelRot SpecRot FactsRot
  ModelTransform ModelRobot ModelKin SpecKin FactsKin FactsJac ModelSub SpecSub FactsSub ModelInvkin SpecInvkin FactsInvkin FactsIkGeo FactsRobot6.
Import ListNotations.
Open Scope R_scope.

Lemma subproblem1_err p q k e : subproblem1 p q k = Err e -> e = AssertionError.
Proof.
  intros E. destruct (vec3_dec k) as [->|K].
  - unfold subproblem1 in E. destruct (Rltb _ _); [discriminate|]. rewrite (proj2 (Reqb_norm_true vzero) eq_refl) in E. congruence.
  - destruct (subproblem1_total p q k K) as [[t T]|T]; congruence.
Qed.
Ltac sp1_err E :=
  repeat match type of E with
  | bind (subproblem1 ?a ?b ?c) _ = _ => let F := fresh "F" in destruct (subproblem1 a b c) eqn:F; cbn [bind] in E;
      [|inversion E; subst; apply subproblem1_err in F; exact F]
  end.
Lemma subproblem2_err p q k1 k2 e : subproblem2 p q k1 k2 = Err e -> e = AssertionError.
Proof.
  unfold subproblem2. cbv zeta. intros E.
  destruct (Rltb (Rabs (1 - dot k1 k2 * dot k1 k2)) eps); [discriminate|].
  match type of E with (if Rltb ?x 0 then _ else _) = _ => destruct (Rltb x 0); [discriminate|] end.
  destruct (Reqb (norm (cross k1 k2)) 0); [congruence|].
  match type of E with (if ?b then _ else _) = _ => destruct b end; sp1_err E; discriminate.
Qed.
Lemma subproblem3_err p q k d e : subproblem3 p q k d = Err e -> e = AssertionError.
Proof.
  unfold subproblem3. cbv zeta. intros E.
  match type of E with (if Rltb ?x 0 then _ else _) = _ => destruct (Rltb x 0); [discriminate|] end.
  match type of E with (if Reqb ?x 0 then _ else _) = _ => destruct (Reqb x 0) end.
  match type of E with (if Reqb ?x 0 then _ else _) = _ => destruct (Reqb x 0); congruence end.
  match type of E with (if ?b then _ else _) = _ => destruct b; [discriminate|] end.
  sp1_err E. destruct (Rltb 0 _); discriminate.
Qed.
Lemma norm_eq_sq v d : 0 <= d -> dot v v = d * d -> norm v = d.
Proof. intros D E. unfold norm, norm2. rewrite E. apply sqrt_square; auto. Qed.
Lemma in_dec_nan (l : list (flt R)) : {In NaN l} + {~ In NaN l}.
Proof.
  induction l as [|[x|] l IH]; [right; intros []| |left; simpl; auto].
  destruct IH as [I|I]; [left; right; auto|right; intros [E|E]; [discriminate|auto]].
Qed.
(** farther than the links reach: no elbow angle *)
Lemma subproblem3_far p q k d : unit3 k -> norm p + norm q < d -> subproblem3 p q k d = Ok [].
Proof.
  intros U D. pose proof (norm_nonneg p). pose proof (norm_nonneg q).
  assert (F : forall t, norm (vadd q (mvec (rot k t) p)) <> d).
  { intros t E. pose proof (norm_triangle q (mvec (rot k t) p)). rewrite SO3_norm in H1 by auto using rot_SO3. lra. }
  destruct (subproblem3 p q k d) as [[|t l]|e] eqn:E; auto.
  - exfalso. destruct (subproblem3_true p q k d (t :: l) t U) as (t' & N & _); simpl; auto; [lra|]. apply (F t' N).
  - exfalso. destruct (vec3_dec (perp k p)) as [P|P].
    { destruct (sp3_on_axis k p q d U (or_introl P)) as [[_ G]|[G _]]; [|congruence]. apply (F 0), norm_eq_sq; [lra|apply G]. }
    destruct (vec3_dec (perp k q)) as [Q|Q].
    { destruct (sp3_on_axis k p q d U (or_intror Q)) as [[_ G]|[G _]]; [|congruence]. apply (F 0), norm_eq_sq; [lra|apply G]. }
    destruct (subproblem3_cases k p q d U P Q) as [[G _]|(s & t0 & _ & _ & _ & _ & [G|[_ G]])]; congruence.
Qed.

Lemma normalize_total z n j t : lims_len z n -> (j < n)%nat -> exists o, normalize z j t = Ok o.
Proof.
  intros L J. destruct (lims_total z n j L J) as [lu Lu].
  destruct (normalize_spec z j t lu Lu) as [(E & _)|(x & E & _)]; eauto.
  intros l El. destruct L as [_ L]. rewrite (L l El). auto.
Qed.
Lemma index_total {A} (l : list A) j : (j < length l)%nat -> exists x, index l j = Ok x.
Proof. intros H. unfold index. destruct (nth_error l j) eqn:E; eauto. apply nth_error_None in E. lia. Qed.
Lemma normalize_flt_total z n j t : lims_len z n -> (j < n)%nat -> exists o, normalize_flt z j t = Ok o.
Proof.
  intros L J. destruct t as [t|]; simpl.
  - destruct (normalize_total z n j t L J) as [o ->]. simpl. eauto.
  - destruct L as [L1 L2]. destruct (nlimits z) as [[ls us]|].
    + destruct (L1 ls us eq_refl) as [A B]. destruct (index_total ls j) as [x ->]; [lia|]. destruct (index_total us j) as [y ->]; [lia|]. simpl. eauto.
    + destruct (nlast z) as [l|]; eauto. destruct (index_total l j) as [y ->]; [rewrite (L2 l eq_refl); lia|]. simpl. eauto.
Qed.
Lemma normalize_pair_total z n i j t : lims_len z n -> (i < n)%nat -> (j < n)%nat -> exists o, normalize_pair z (i, j) t = Ok o.
Proof.
  intros L I J. unfold normalize_pair. cbn [fst snd]. destruct (normalize_total z n i (fst t) L I) as [o ->].
  destruct (normalize_total z n j (snd t) L J) as [o' ->]. simpl. eauto.
Qed.
Lemma normalizer_len r last n : wf_robot r -> length (rtype r) = n -> (forall l, last = Some l -> length l = n) ->
  lims_len (normalize_joints r last false) n.
Proof.
  intros W N L. split; simpl.
  - intros ls us E. destruct (rlower r) as [a|] eqn:A; [|discriminate]. destruct (rupper r) as [b|] eqn:B; [|discriminate].
    inversion E; subst. rewrite (wf_lower r W ls A), (wf_upper r W us B). auto.
  - intros l E. auto.
Qed.

Section Err.
Context (argsort : list (flt R) -> list nat) (SP : argsort_spec argsort).
Lemma sort_err last sols e : sort_solutions argsort last sols = Err e -> e = ValueError /\ last <> None.
Proof.
  unfold sort_solutions. destruct last as [lj|]; [|discriminate]. destruct sols as [|s sols]; [intros E; inversion E; split; congruence|].
  destruct (Nat.eqb (length s) (length lj)); [|intros E; inversion E; split; congruence].
  intros E. exfalso. destruct (sorted_by argsort SP (fun s => joint_dist s lj) (s :: sols)) as (res & Er & _). congruence.
Qed.

Context (r : robot) (h0 h1 h2 h3 h4 h5 P0 P1 P2 P3 P4 P5 P6 : vec3) (pose : transform) (last : option (list R)).
Context (HH : rH r = [h0; h1; h2; h3; h4; h5]).
Context (WF : wf_robot r) (TY : length (rtype r) = 6%nat) (LL : forall l, last = Some l -> length l = 6%nat).
Let P := [P0; P1; P2; P3; P4; P5; P6].
Let z := normalize_joints r last false.
Lemma z_len : lims_len z 6. Proof. apply normalizer_len; auto. Qed.

Lemma robot6_arm_err A pT q1 e : robot6_arm argsort z [h0; h1; h2; h3; h4; h5] P A pT q1 = Err e -> e = AssertionError.
Proof.
  pose proof z_len as ZL. destruct q1 as [q1|]; [|simpl; congruence]. unfold robot6_arm, index. cbn [nth_error bind P]. cbv zeta.
  set (w := vsub _ (vadd P0 P1)). intros E.
  destruct (subproblem3 P3 P2 h2 (norm w)) as [Q3|e'] eqn:E3; cbn [bind] in E; [|inversion E; subst; eapply subproblem3_err; eauto].
  destruct (candidates_total argsort SP z (normalize z 2) (fun x => Fin (Rabs (x - last_of_joint z 2))) (fun x => Rltb (Rabs (x - last_of_joint z 2)) (PI / 2)) Q3) as [N3 C3].
  { intros x _. apply (normalize_total z 6); auto; lia. }
  unfold call1 in E. rewrite C3 in E. cbn [bind] in E.
  apply flat_map_out_err in E as (q3 & _ & E).
  destruct (subproblem1 _ w h1) as [t2|e'] eqn:E2; cbn [bind] in E; [|inversion E; subst; eapply subproblem1_err; eauto].
  destruct (normalize_total z 6 1 t2 ZL) as [[q2|] M2]; [lia| |]; rewrite M2 in E; cbn [bind] in E; [|discriminate].
  unfold robot6_wrist in E. cbv zeta in E.
  destruct (subproblem2 h5 _ h3 h4) as [Q45|e'] eqn:E45; cbn [bind] in E; [|inversion E; subst; eapply subproblem2_err; eauto].
  match type of E with bind ?c _ = _ => assert (X : exists N, c = Ok N) end.
  { unfold call2. apply candidates_total; auto. intros x _. apply (normalize_pair_total z 6); auto; lia. }
  destruct X as [N45 X]. rewrite X in E. cbn [bind] in E. apply flat_map_out_err in E as ([q4 q5] & _ & E).
  destruct (subproblem1 h4 _ h5) as [t6|e'] eqn:E6; cbn [bind] in E; [|inversion E; subst; eapply subproblem1_err; eauto].
  destruct (normalize_total z 6 5 t6 ZL) as [[q6|] M6]; [lia| |]; rewrite M6 in E; cbn [bind] in E; discriminate.
Qed.
Lemma call_flt_total j theta : (j < 6)%nat -> exists N, call_flt argsort z j theta = Ok N.
Proof. intros J. unfold call_flt. apply candidates_total; auto. intros x _. apply (normalize_flt_total z 6); auto. apply z_len. Qed.
Lemma robot6_solve_err e : robot6_solve argsort r P pose last = Err e -> e = AssertionError \/ (e = ValueError /\ last <> None).
Proof.
  unfold robot6_solve. rewrite HH. unfold index. cbn [nth_error bind P]. cbv zeta. fold z.
  match goal with |- context [call_flt argsort z 0 ?q] => destruct (call_flt_total 0 q) as [N1 ->]; [lia|] end. cbn [bind].
  intros E. destruct (flat_map_out _ N1) as [sols|e'] eqn:ES; cbn [bind] in E.
  - right. apply sort_err in E; auto.
  - left. inversion E; subst. apply flat_map_out_err in ES as (x & _ & ES). eapply robot6_arm_err; eauto.
Qed.
Lemma robot6_sols_err e : robot6_sols argsort r h0 h1 h2 h3 h4 h5 P0 P1 P2 P3 P4 P5 P6 pose last = Err e -> e = AssertionError.
Proof.
  unfold robot6_sols. fold z P.
  match goal with |- context [call_flt argsort z 0 ?q] => destruct (call_flt_total 0 q) as [N1 ->]; [lia|] end. cbn [bind].
  intros ES. apply flat_map_out_err in ES as (x & _ & ES). eapply robot6_arm_err; eauto.
Qed.
(** Out of reach: nothing found, unless a NaN gets through. *)
Lemma robot6_solve_far : unit3 h0 -> unit3 h2 -> norm (vadd P0 P1) + norm P2 + norm P3 < norm (vsub (tp pose) (mvec (tR pose) P6)) ->
  robot6_solve argsort r P pose None = Ok [] \/
  (no_limits r /\ robot6_solve argsort r P pose None = Err AssertionError /\
   In NaN (subproblem4 ey (vsub (tp pose) (mvec (tR pose) P6)) (vneg h0) (dot ey (vadd (vadd P1 P2) P3)))).
Proof.
  intros U0 U2 F. set (v1 := vsub (tp pose) (mvec (tR pose) P6)) in *.
  assert (AR : forall z q1, robot6_arm argsort z [h0; h1; h2; h3; h4; h5] P (tR pose) (tp pose) (Fin q1) = Ok []).
  { intros z0 q1. unfold robot6_arm, index. cbn [nth_error bind P]. cbv zeta. fold v1.
    rewrite subproblem3_far; auto.
    - cbn [bind]. unfold call1, candidates. simpl. destruct (nlast z0); reflexivity.
    - pose proof (norm_triangle (vsub (mvec (mT (rot h0 q1)) v1) (vadd P0 P1)) (vadd P0 P1)) as T.
      replace (vadd (vsub (mvec (mT (rot h0 q1)) v1) (vadd P0 P1)) (vadd P0 P1)) with (mvec (mT (rot h0 q1)) v1) in T.
      2:{ generalize (mvec (mT (rot h0 q1)) v1), (vadd P0 P1). clear. intros a b. apply vec3_eq; simpl; ring. }
      rewrite SO3_norm in T by auto using SO3_T, rot_SO3. lra. }
  unfold robot6_solve. rewrite HH. unfold index. cbn [nth_error bind P]. cbv zeta. fold v1.
  set (z0 := normalize_joints r None false). set (Q1 := subproblem4 ey v1 (vneg h0) (dot ey (vadd (vadd P1 P2) P3))).
  unfold call_flt. rewrite candidates_no_last by reflexivity.
  assert (ZL : lims_len z0 6) by (apply normalizer_len; auto; intros; discriminate).
  destruct (filter_out_total (normalize_flt z0 0) Q1) as [N1 E1].
  { intros x _. apply (normalize_flt_total z0 6); auto; lia. }
  rewrite E1. cbn [bind].
  destruct (in_dec_nan N1) as [I|I].
  - right. apply (filter_out_in _ _ _ E1) in I as (x & I & X).
    assert (NL : no_limits r).
    { unfold no_limits. destruct x as [t|]; simpl in X.
      - destruct (normalize z0 0 t) as [[y|]|]; simpl in X; inversion X.
      - unfold z0, normalize_joints in X. simpl in X. destruct (rlower r), (rupper r); auto. simpl in X.
        destruct (index l 0); simpl in X; [|discriminate]. destruct (index l0 0); simpl in X; discriminate. }
    split; auto. assert (x = NaN) as ->.
    { destruct x as [t|]; auto. simpl in X. destruct (normalize z0 0 t) as [[y|]|]; simpl in X; inversion X. }
    split; auto.
    assert (IN : In NaN N1) by (apply (filter_out_in _ _ _ E1); eauto).
    destruct (flat_map_out_raises (robot6_arm argsort z0 [h0; h1; h2; h3; h4; h5] P (tR pose) (tp pose)) N1 NaN AssertionError IN eq_refl) as [e E].
    fold P. rewrite E. cbn [bind]. apply flat_map_out_err in E as (y & _ & E). destruct y as [y|]; [rewrite AR in E; discriminate|]. simpl in E. congruence.
  - left. fold P. rewrite flat_map_out_nil; auto. intros [y|] Iy; [apply AR|contradiction].
Qed.
End Err.
