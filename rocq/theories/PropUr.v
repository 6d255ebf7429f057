(** Properties C42, C43, C64, C66 and the UR parts of C38, C63 and C65: ur_invkin. *)
From Coq Require Import Reals ZArith List Bool Lia Lra Psatz Sorting.Permutation Sorting.Sorted.
From Verif Require Import LinAlg RealAux Py FactsReal FactsLinAlg ModelRot SpecRot FactsRot
  ModelTransform ModelRobot ModelKin SpecKin FactsKin FactsJac ModelSub SpecSub FactsSub ModelInvkin SpecInvkin
  FactsInvkin FactsIkGeo FactsRobot6 FactsIkErr FactsIkMut FactsUr FactsIkOk FactsUrFar PropKin PropSub PropInvkin PropRobot6.
Import ListNotations.
Open Scope R_scope.

(** * C42: only solutions *)
(** fwdkin's own limit check is off: see C43 for the fifth joint. *)
Theorem C42_sound : forall argsort, argsort_spec argsort ->
  forall r h p0 p1 p2 p3 p4 p5 p6, ur r h p0 p1 p2 p3 p4 p5 p6 -> wf_aux r ->
  forall pose last res q, rigid pose -> ur_invkin argsort r pose last = Ok res -> In q res ->
  exists T, fwdkin r q true = Ok T /\
  forall x, norm (vsub (act T x) (act pose x)) <=
            (Rmax 1 (norm p3) + 7 * norm (vadd (vadd p6 p5) (point6 r x))) * sqrt_eps.
Proof.
  intros argsort SP r h p0 p1 p2 p3 p4 p5 p6 U W pose last res q RG E I.
  pose proof (ur_wf _ _ _ _ _ _ _ _ _ U) as WF. pose proof (ur_types _ _ _ _ _ _ _ _ _ U) as TY.
  destruct (ur_sound argsort SP r _ _ _ _ _ _ _ _ U pose last res q W RG E I) as (q1 & q2 & q3 & q4 & q5 & q6 & -> & B & _).
  exists (apply_aux r (bare_pose r [q1; q2; q3; q4; q5; q6])). split.
  - apply fwdkin_ignore; auto. rewrite TY. reflexivity.
  - intros x. rewrite act_fwdkin by auto. apply B.
Qed.
(** Exactly the pose, unless an angle comes out as zero or the arm's two links nearly line up in the zero position. *)
Theorem C42_exact : forall argsort, argsort_spec argsort ->
  forall r h p0 p1 p2 p3 p4 p5 p6, ur r h p0 p1 p2 p3 p4 p5 p6 -> wf_aux r ->
  forall pose last res q1 q2 q3 q4 q5 q6, rigid pose -> ur_invkin argsort r pose last = Ok res -> In [q1; q2; q3; q4; q5; q6] res ->
  sqrt_eps <= norm (vsub (dir (perp ey p3)) (dir (perp ey p2))) ->
  ~ ang_eq q2 0 -> ~ ang_eq (q2 + q3 + q4) 0 -> ~ ang_eq q5 0 -> ~ ang_eq q6 0 ->
  exists T, fwdkin r [q1; q2; q3; q4; q5; q6] true = Ok T /\ same_motion T pose.
Proof.
  intros argsort SP r h p0 p1 p2 p3 p4 p5 p6 U W pose last res q1 q2 q3 q4 q5 q6 RG E I D N2 N4 N5 N6.
  pose proof (ur_wf _ _ _ _ _ _ _ _ _ U) as WF. pose proof (ur_types _ _ _ _ _ _ _ _ _ U) as TY.
  destruct (ur_sound argsort SP r _ _ _ _ _ _ _ _ U pose last res _ W RG E I) as (a1 & a2 & a3 & a4 & a5 & a6 & EQ & _ & X & _).
  inversion EQ; subst a1 a2 a3 a4 a5 a6.
  exists (apply_aux r (bare_pose r [q1; q2; q3; q4; q5; q6])). split.
  - apply fwdkin_ignore; auto. rewrite TY. reflexivity.
  - apply C16_faithful. intros x. rewrite act_fwdkin by auto. apply X; auto.
Qed.

(** * C43: inside the limits *)
(** All joints but the fifth; fwdkin accepts the vector exactly when the fifth joint happens to
    lie inside its limits. *)
Theorem C43_limits : forall argsort, argsort_spec argsort ->
  forall r h p0 p1 p2 p3 p4 p5 p6, ur r h p0 p1 p2 p3 p4 p5 p6 -> wf_aux r ->
  forall pose last res q, rigid pose -> ur_invkin argsort r pose last = Ok res -> In q res ->
  length q = 6%nat /\ (forall j theta, j <> 4%nat -> nth_error q j = Some theta -> allowed r j theta) /\
  ((forall l u theta, limits_of r 4 l u -> nth_error q 4 = Some theta -> l <= theta <= u) <-> within_limits r q) /\
  (within_limits r q -> exists T, fwdkin r q false = Ok T) /\ (~ within_limits r q -> fwdkin r q false = Err AssertionError).
Proof.
  intros argsort SP r h p0 p1 p2 p3 p4 p5 p6 U W pose last res q RG E I.
  pose proof (ur_wf _ _ _ _ _ _ _ _ _ U) as WF. pose proof (ur_types _ _ _ _ _ _ _ _ _ U) as TY.
  destruct (ur_sound argsort SP r _ _ _ _ _ _ _ _ U pose last res q W RG E I) as (q1 & q2 & q3 & q4 & q5 & q6 & -> & _ & _ & L).
  assert (LE : length [q1; q2; q3; q4; q5; q6] = length (rtype r)) by (rewrite TY; reflexivity).
  destruct L as (L0 & L1 & L2 & L3 & L5).
  split; auto. split; [|split; [|split]].
  - intros j theta N J. do 6 (destruct j as [|j]; [simpl in J; inversion J; subst; try assumption; congruence|]). destruct j; discriminate.
  - unfold within_limits. pose proof (wf_lower r WF) as LL. pose proof (wf_upper r WF) as LU. unfold allowed, limits_of in *.
    destruct (rlower r) as [l|]; [|split; [auto|intros _ l u theta (ls & us & X & _); discriminate]].
    destruct (rupper r) as [u|]; [|split; [auto|intros _ l' u theta (ls & us & _ & X & _); discriminate]].
    specialize (LL l eq_refl). specialize (LU u eq_refl). rewrite TY in LL, LU.
    destruct (list6 l LL) as (l0 & l1 & l2 & l3 & l4 & l5 & ->). destruct (list6 u LU) as (u0 & u1 & u2 & u3 & u4 & u5 & ->).
    assert (H0 := L0 l0 u0 ltac:(repeat eexists)). assert (H1 := L1 l1 u1 ltac:(repeat eexists)). assert (H2 := L2 l2 u2 ltac:(repeat eexists)).
    assert (H3 := L3 l3 u3 ltac:(repeat eexists)). assert (H5 := L5 l5 u5 ltac:(repeat eexists)).
    split.
    + intros H4. specialize (H4 l4 u4 q5 ltac:(repeat eexists) eq_refl). split; repeat apply Forall2_cons; try apply Forall2_nil; lra.
    + intros [A B] l' u' theta (ls & us & X & Y & Nl & Nu) T. inversion X; inversion Y; subst. simpl in Nl, Nu, T. inversion Nl; inversion Nu; inversion T; subst.
      repeat match goal with F : Forall2 _ (_ :: _) _ |- _ => inversion F; clear F; subst end. lra.
  - intros WI. destruct (fwdkin_accepts r _ WF LE WI) as (T & ET & _). eauto.
  - apply fwdkin_limits; auto.
Qed.

(** * C38: nearest first *)
Theorem C38_ur : forall argsort, argsort_spec argsort ->
  forall r h p0 p1 p2 p3 p4 p5 p6, ur r h p0 p1 p2 p3 p4 p5 p6 ->
  forall pose lj res, ur_invkin argsort r pose (Some lj) = Ok res ->
  nearest_first (fun q => euclid q lj) res /\
  exists q rest, res = q :: rest /\ forall q', In q' res -> euclid q lj <= euclid q' lj.
Proof.
  intros argsort SP r h p0 p1 p2 p3 p4 p5 p6 U pose lj res. rewrite (ur_invkin_sols argsort r _ _ _ _ _ _ _ _ U pose (Some lj)).
  match goal with |- bind ?c _ = _ -> _ => destruct c as [sols|]; [|discriminate] end. cbn [bind]. intros E.
  apply (sort_last argsort SP) in E as (NE & P & S). split; auto.
  destruct res as [|q rest]; [apply Permutation_nil in P; contradiction|]. exists q, rest. split; auto.
  inversion S as [|? ? _ F]; subst. intros q' [->|I]; [lra|]. rewrite Forall_forall in F. auto.
Qed.

(** * C63: when it raises *)
Theorem C63_ur_errors : forall argsort, argsort_spec argsort ->
  forall r h p0 p1 p2 p3 p4 p5 p6, ur r h p0 p1 p2 p3 p4 p5 p6 ->
  forall pose last e, (forall l, last = Some l -> length l = 6%nat) ->
  ur_invkin argsort r pose last = Err e -> e = AssertionError \/ (e = ValueError /\ last <> None).
Proof.
  intros argsort SP r h p0 p1 p2 p3 p4 p5 p6 U pose last e LL. rewrite (ur_invkin_sols argsort r _ _ _ _ _ _ _ _ U pose last).
  match goal with |- bind ?c _ = _ -> _ => destruct c as [sols|e'] eqn:ES end; cbn [bind]; intros E.
  - right. apply (sort_err argsort SP) in E. auto.
  - left. inversion E; subst. eapply (ur_sols_err argsort SP r _ _ _ _ _ _ _ _ U pose last); eauto.
Qed.
(** Links of different length, a solvable equation for the first joint and no answer of it that
    aligns the fourth and sixth axes: no assertion fails. *)
Theorem C63_ur_regular : forall argsort, argsort_spec argsort ->
  forall r h p0 p1 p2 p3 p4 p5 p6, ur r h p0 p1 p2 p3 p4 p5 p6 -> wf_aux r ->
  ~ on_axis ey p2 -> ~ on_axis ey p3 -> norm (perp ey p2) <> norm (perp ey p3) ->
  forall pose last A v, rigid pose -> (forall l, last = Some l -> length l = 6%nat) -> wrist_of r pose (vadd p6 p5) A v ->
  let d := dot ey (vadd (vadd (vadd p1 p2) p3) p4) in
  ~ no_limits r \/ base_solvable ez v d ->
  (forall q1, dot ey (rotate ez (- q1) v) = d -> let c := dot (mvec A ey) (rotate ez q1 ey) in eps <= 1 - c * c) ->
  (exists res, ur_invkin argsort r pose last = Ok res) \/ (ur_invkin argsort r pose last = Err ValueError /\ last <> None).
Proof.
  intros argsort SP r h p0 p1 p2 p3 p4 p5 p6 U W O2 O3 NE pose last A v RG LL WO d NN WS.
  destruct (wrist_unique r pose _ A v W WO) as [EV EA]. rewrite EV in NN.
  assert (WS' : forall q1, dot ey (rotate ez (- q1) (vsub (tp (unapply_aux r pose)) (mvec (tR (unapply_aux r pose)) (vadd p6 p5)))) = d ->
     let c := dot (mvec (tR (unapply_aux r pose)) ey) (rotate ez q1 ey) in eps <= 1 - c * c).
  { intros q1. rewrite <- EV, <- EA. apply WS. }
  destruct (ur_invkin argsort r pose last) as [res|e] eqn:E; [left; eauto|right].
  destruct (ur_no_raise argsort SP r _ _ _ _ _ _ _ _ U W pose RG last LL O2 O3 NE NN WS' e E) as [-> LN]. auto.
Qed.

(** * C64: every solution is found *)
(** Away from the singularities and the solver's thresholds.  The limits of the second to fourth
    joints must be at most a half turn either way (or, for the second and fourth, more than that
    on both sides): see C64_lost_refuted. *)
Theorem C64_complete : forall argsort, argsort_spec argsort ->
  forall r h p0 p1 p2 p3 p4 p5 p6, ur r h p0 p1 p2 p3 p4 p5 p6 -> wf_aux r -> ur_limits r ->
  ~ on_axis ey p2 -> ~ on_axis ey p3 -> sqrt_eps <= norm (vsub (dir (perp ey p3)) (dir (perp ey p2))) ->
  forall pose a1 a2 a3 a4 a5 a6 res, reaches r [a1; a2; a3; a4; a5; a6] pose ->
  let e := vadd p2 (rotate h a3 p3) in
  let f := a2 + a3 + a4 in
  ~ on_axis ez (rotate ez a1 (vadd p1 (vadd (rotate h a2 e) (rotate h f p4)))) -> ~ on_axis h e -> eps <= sin a5 * sin a5 ->
  clear_move h a2 e -> clear_move h f (rotate (vneg ez) a5 h) -> clear_move h a6 (vneg ez) ->
  (forall j t, j <> 4%nat -> nth_error [a1; a2; a3; a4; a5; a6] j = Some t -> allowed r j t) ->
  (forall j t, j <> 3%nat -> j <> 4%nat -> nth_error [a1; a2; a3; a4; a5; a6] j = Some t -> Rabs t < 3 / 2 * PI) ->
  ur_invkin argsort r pose None = Ok res ->
  exists q, In q res /\ turns_eq q [a1; a2; a3; a4; a5; a6].
Proof.
  intros argsort SP r h p0 p1 p2 p3 p4 p5 p6 U W UL O2 O3 Q pose a1 a2 a3 a4 a5 a6 res RC e f Oc Oe S5 C2 C4 C6 AL B E.
  destruct (path_ur_complete r _ _ _ _ _ _ _ _ U W pose a1 a2 a3 a4 a5 a6 RC O2 O3 Q Oc Oe C2 S5 C4 C6) as (q1 & q2 & q3 & q4 & q5 & q6 & PT & K); auto.
  - apply Forall_cons; [apply (B 0%nat); auto|]. apply Forall_cons; [apply (B 1%nat); auto|]. apply Forall_cons; [apply (B 2%nat); auto|]. apply Forall_cons; [apply (B 5%nat); auto|]. apply Forall_nil.
  - exists [q1; q2; q3; q4; q5; q6]. split; auto.
    apply (ur_path_in argsort SP r _ _ _ _ _ _ _ _ U pose None res q1 q2 q3 q4 q5 q6 I I E PT).
Qed.
(** With no assumption that the call succeeds. *)
Theorem C64_regular : forall argsort, argsort_spec argsort ->
  forall r h p0 p1 p2 p3 p4 p5 p6, ur r h p0 p1 p2 p3 p4 p5 p6 -> wf_aux r -> ur_limits r ->
  ~ on_axis ey p2 -> ~ on_axis ey p3 -> norm (perp ey p2) <> norm (perp ey p3) -> sqrt_eps <= norm (vsub (dir (perp ey p3)) (dir (perp ey p2))) ->
  forall pose A v, rigid pose -> wrist_of r pose (vadd p6 p5) A v ->
  let d := dot ey (vadd (vadd (vadd p1 p2) p3) p4) in
  ~ no_limits r \/ base_solvable ez v d ->
  (forall q1, dot ey (rotate ez (- q1) v) = d -> let c := dot (mvec A ey) (rotate ez q1 ey) in eps <= 1 - c * c) ->
  exists res, ur_invkin argsort r pose None = Ok res /\
  forall a1 a2 a3 a4 a5 a6, reaches r [a1; a2; a3; a4; a5; a6] pose ->
  let e := vadd p2 (rotate h a3 p3) in
  let f := a2 + a3 + a4 in
  ~ on_axis ez (rotate ez a1 (vadd p1 (vadd (rotate h a2 e) (rotate h f p4)))) -> ~ on_axis h e -> eps <= sin a5 * sin a5 ->
  clear_move h a2 e -> clear_move h f (rotate (vneg ez) a5 h) -> clear_move h a6 (vneg ez) ->
  (forall j t, j <> 4%nat -> nth_error [a1; a2; a3; a4; a5; a6] j = Some t -> allowed r j t) ->
  (forall j t, j <> 3%nat -> j <> 4%nat -> nth_error [a1; a2; a3; a4; a5; a6] j = Some t -> Rabs t < 3 / 2 * PI) ->
  exists q, In q res /\ turns_eq q [a1; a2; a3; a4; a5; a6].
Proof.
  intros argsort SP r h p0 p1 p2 p3 p4 p5 p6 U W UL O2 O3 NE Q pose A v RG WO d NN WS.
  destruct (C63_ur_regular argsort SP r _ _ _ _ _ _ _ _ U W O2 O3 NE pose None A v RG ltac:(discriminate) WO NN WS) as [[res E]|[_ X]]; [|congruence].
  exists res. split; auto. intros a1 a2 a3 a4 a5 a6 RC e f Oc Oe S5 C2 C4 C6 AL B.
  apply (C64_complete argsort SP r _ _ _ _ _ _ _ _ U W UL O2 O3 Q pose a1 a2 a3 a4 a5 a6 res); auto.
Qed.

(** * C65: tracking *)
(** The fifth joint is not normalised, so it is found up to whole turns only. *)
Theorem C65_ur_tracking : forall argsort, argsort_spec argsort ->
  forall r h p0 p1 p2 p3 p4 p5 p6, ur r h p0 p1 p2 p3 p4 p5 p6 -> wf_aux r ->
  ~ on_axis ey p2 -> ~ on_axis ey p3 -> sqrt_eps <= norm (vsub (dir (perp ey p3)) (dir (perp ey p2))) ->
  forall pose l a1 a2 a3 a4 a5 a6, length l = 6%nat -> reaches r [a1; a2; a3; a4; a5; a6] pose ->
  let e := vadd p2 (rotate h a3 p3) in
  let f := a2 + a3 + a4 in
  ~ on_axis ez (rotate ez a1 (vadd p1 (vadd (rotate h a2 e) (rotate h f p4)))) -> ~ on_axis h e -> eps <= sin a5 * sin a5 ->
  clear_move h a2 e -> clear_move h f (rotate (vneg ez) a5 h) -> clear_move h a6 (vneg ez) ->
  (forall j t, j <> 4%nat -> nth_error [a1; a2; a3; a4; a5; a6] j = Some t -> allowed r j t) ->
  (forall j t, j <> 3%nat -> j <> 4%nat -> nth_error [a1; a2; a3; a4; a5; a6] j = Some t -> Rabs t < 3 / 2 * PI) ->
  Rabs f < 3 * PI ->
  (forall j t lj, j <> 4%nat -> nth_error [a1; a2; a3; a4; a5; a6] j = Some t -> nth_error l j = Some lj -> Rabs (t - lj) < PI / 2) ->
  ur_invkin argsort r pose (Some l) = Err AssertionError \/
  exists res b5, ur_invkin argsort r pose (Some l) = Ok res /\ ang_eq b5 a5 /\ - PI <= b5 <= PI /\ In [a1; a2; a3; a4; b5; a6] res.
Proof.
  intros argsort SP r h p0 p1 p2 p3 p4 p5 p6 U W O2 O3 Q pose l a1 a2 a3 a4 a5 a6 LL RC e f Oc Oe S5 C2 C4 C6 AL B F NR.
  pose proof (ur_wf _ _ _ _ _ _ _ _ _ U) as WF. pose proof (ur_types _ _ _ _ _ _ _ _ _ U) as TY.
  assert (LS : forall k, Some l = Some k -> length k = 6%nat) by (intros k X; inversion X; subst; auto).
  assert (T6 : length (rtype r) = 6%nat) by (rewrite TY; reflexivity).
  assert (NR' : forall j t, j <> 4%nat -> nth_error [a1; a2; a3; a4; a5; a6] j = Some t -> Rabs (t - nth j l 0) < PI / 2).
  { intros j t N J. apply (NR j); auto. apply nth_error_nth'. rewrite LL. apply nth_error_Some in J || idtac.
    assert (X : nth_error [a1; a2; a3; a4; a5; a6] j <> None) by congruence. apply nth_error_Some in X. exact X. }
  pose proof (NR' 0%nat a1 ltac:(auto) eq_refl) as N1. pose proof (NR' 1%nat a2 ltac:(auto) eq_refl) as N2. pose proof (NR' 2%nat a3 ltac:(auto) eq_refl) as N3.
  pose proof (NR' 3%nat a4 ltac:(auto) eq_refl) as N4. pose proof (NR' 5%nat a6 ltac:(auto) eq_refl) as N6.
  pose proof (track r (Some l) WF T6 LS) as TR.
  destruct (path_ur_core r _ _ _ _ _ _ _ _ U W pose (normalize_joints r (Some l) false) (tracked (Some l)) a1 a2 a3 a4 a5 a6 (tracked_ang (Some l)) TR) as (q1 & q2 & q3 & q4 & q5 & q6 & PT & K1 & K2 & K3 & K4 & K5 & K6); auto.
  { intros t4 t2 q2 t3 q3 R4 R2 M2 M3 K2 K3 K4. destruct K2 as [_ K2]. destruct K3 as [_ K3]. rewrite (K2 N2), (K3 N3) in *.
    apply TR; auto. pose proof PI_pos. unfold f in F. apply Rabs_def2 in F. apply Rabs_def1; lra. }
  { apply Forall_cons; [apply (B 0%nat); auto|]. apply Forall_cons; [apply (B 1%nat); auto|]. apply Forall_cons; [apply (B 2%nat); auto|]. apply Forall_cons; [apply (B 5%nat); auto|]. apply Forall_nil. }
  destruct K1 as [_ K1]. destruct K2 as [_ K2]. destruct K3 as [_ K3]. destruct K4 as [_ K4]. destruct K6 as [_ K6].
  rewrite (K1 N1), (K2 N2), (K3 N3), (K4 N4), (K6 N6) in PT.
  destruct (ur_path_sorts argsort SP r _ _ _ _ _ _ _ _ U pose (Some l) _ _ _ _ _ _ LS N1 N3 PT) as [[res E]|(x & ES & E)].
  - right. exists res, q5. split; auto. destruct K5 as [K5 R5]. split; auto. split; auto.
    apply (ur_path_in argsort SP r _ _ _ _ _ _ _ _ U pose (Some l) res _ _ _ _ _ _ N1 N3 E PT).
  - left. rewrite E. f_equal. apply (ur_sols_err argsort SP r _ _ _ _ _ _ _ _ U pose (Some l) x LS ES).
Qed.
(** With no assumption that the call succeeds: an entry at least as near comes first. *)
Theorem C65_ur_regular : forall argsort, argsort_spec argsort ->
  forall r h p0 p1 p2 p3 p4 p5 p6, ur r h p0 p1 p2 p3 p4 p5 p6 -> wf_aux r ->
  ~ on_axis ey p2 -> ~ on_axis ey p3 -> norm (perp ey p2) <> norm (perp ey p3) -> sqrt_eps <= norm (vsub (dir (perp ey p3)) (dir (perp ey p2))) ->
  forall pose A v, rigid pose -> wrist_of r pose (vadd p6 p5) A v ->
  let d := dot ey (vadd (vadd (vadd p1 p2) p3) p4) in
  ~ no_limits r \/ base_solvable ez v d ->
  (forall q1, dot ey (rotate ez (- q1) v) = d -> let c := dot (mvec A ey) (rotate ez q1 ey) in eps <= 1 - c * c) ->
  forall l a1 a2 a3 a4 a5 a6, length l = 6%nat -> reaches r [a1; a2; a3; a4; a5; a6] pose ->
  let e := vadd p2 (rotate h a3 p3) in
  let f := a2 + a3 + a4 in
  ~ on_axis ez (rotate ez a1 (vadd p1 (vadd (rotate h a2 e) (rotate h f p4)))) -> ~ on_axis h e -> eps <= sin a5 * sin a5 ->
  clear_move h a2 e -> clear_move h f (rotate (vneg ez) a5 h) -> clear_move h a6 (vneg ez) ->
  (forall j t, j <> 4%nat -> nth_error [a1; a2; a3; a4; a5; a6] j = Some t -> allowed r j t) ->
  (forall j t, j <> 3%nat -> j <> 4%nat -> nth_error [a1; a2; a3; a4; a5; a6] j = Some t -> Rabs t < 3 / 2 * PI) ->
  Rabs f < 3 * PI ->
  (forall j t lj, j <> 4%nat -> nth_error [a1; a2; a3; a4; a5; a6] j = Some t -> nth_error l j = Some lj -> Rabs (t - lj) < PI / 2) ->
  exists q rest b5, ur_invkin argsort r pose (Some l) = Ok (q :: rest) /\ ang_eq b5 a5 /\ - PI <= b5 <= PI /\
    In [a1; a2; a3; a4; b5; a6] (q :: rest) /\ euclid q l <= euclid [a1; a2; a3; a4; b5; a6] l.
Proof.
  intros argsort SP r h p0 p1 p2 p3 p4 p5 p6 U W O2 O3 NE Q pose A v RG WO d NN WS l a1 a2 a3 a4 a5 a6 LL RC e f Oc Oe S5 C2 C4 C6 AL B F NR.
  pose proof (C63_ur_regular argsort SP r _ _ _ _ _ _ _ _ U W O2 O3 NE pose (Some l) A v RG ltac:(intros ? X; inversion X; subst; auto) WO NN WS) as OK.
  destruct (C65_ur_tracking argsort SP r _ _ _ _ _ _ _ _ U W O2 O3 Q pose l a1 a2 a3 a4 a5 a6 LL RC Oc Oe S5 C2 C4 C6 AL B F NR) as [X|(res & b5 & E & B5 & R5 & I)].
  { rewrite X in OK. destruct OK as [[res OK]|[OK _]]; discriminate. }
  destruct (C38_ur argsort SP r _ _ _ _ _ _ _ _ U pose l res E) as (_ & q & rest & -> & H). exists q, rest, b5. auto 10.
Qed.

(** Where C64 fails: an answer of the first joint's equation that aligns the wrist. *)
Theorem C64_singular : forall argsort, argsort_spec argsort ->
  forall r h p0 p1 p2 p3 p4 p5 p6, ur r h p0 p1 p2 p3 p4 p5 p6 -> wf_aux r ->
  forall pose A v, rigid pose -> wrist_of r pose (vadd p6 p5) A v ->
  forall a1, dot ey (rotate ez (- a1) v) = dot ey (vadd (vadd (vadd p1 p2) p3) p4) -> ~ on_axis ez v -> allowed r 0 a1 -> Rabs a1 < 3 / 2 * PI ->
  (let c := dot (mvec A ey) (rotate ez a1 ey) in 1 - c * c < eps) ->
  ur_invkin argsort r pose None = Err AssertionError.
Proof.
  intros argsort SP r h p0 p1 p2 p3 p4 p5 p6 U W pose A v RG WO a1 D Hc L B G.
  destruct (wrist_unique r pose _ A v W WO) as [EV EA]. rewrite EV in D, Hc. rewrite EA in G.
  exact (ur_singular argsort SP r _ _ _ _ _ _ _ _ U W pose RG a1 D Hc L B G).
Qed.
(** The wrist centre on the first axis: nothing is found. *)
Theorem C64_shoulder : forall argsort, argsort_spec argsort ->
  forall r h p0 p1 p2 p3 p4 p5 p6, ur r h p0 p1 p2 p3 p4 p5 p6 -> wf_aux r ->
  forall pose A v, wrist_of r pose (vadd p6 p5) A v ->
  (forall t, dot ey (rotate ez (- t) v) = dot ey (vadd (vadd (vadd p1 p2) p3) p4)) ->
  (~ no_limits r -> ur_invkin argsort r pose None = Ok []) /\
  (no_limits r -> ur_invkin argsort r pose None = Err AssertionError).
Proof.
  intros argsort SP r h p0 p1 p2 p3 p4 p5 p6 U W pose A v WO B.
  destruct (wrist_unique r pose _ A v W WO) as [EV _]. rewrite EV in B.
  destruct (ur_nan_cases argsort SP r _ _ _ _ _ _ _ _ U pose None ltac:(discriminate) (or_intror B)) as [X Y]; auto.
Qed.

(** * C66: nothing for unreachable poses *)
Lemma ur_side r h p0 p1 p2 p3 p4 p5 p6 (U : ur r h p0 p1 p2 p3 p4 p5 p6) (W : wf_aux r) pose A v q1 q2 q3 q4 q5 q6 :
  wrist_of r pose (vadd p6 p5) A v -> reaches r [q1; q2; q3; q4; q5; q6] pose ->
  dot ey (rotate ez (- q1) v) = dot ey (vadd (vadd (vadd p1 p2) p3) p4) /\ norm v <= norm p0 + norm p1 + norm p2 + norm p3 + norm p4.
Proof.
  intros WO RC. destruct (wrist_unique r pose _ A v W WO) as [EV _].
  destruct (ur_reach_split r _ _ _ _ _ _ _ _ U W pose q1 q2 q3 q4 q5 q6 RC) as [C _]. rewrite <- EV in C.
  pose proof (ur_h _ _ _ _ _ _ _ _ _ U) as Lh. pose proof (ey_line _ Lh) as Uh. pose proof ez_unit' as Uz. pose proof (ur_p0 _ _ _ _ _ _ _ _ _ U) as O0.
  split.
  - rewrite C, <- (rot_rotate ez) by auto. rewrite mvec_vadd, (rot_rot ez (- q1) q1), Rplus_opp_l, rot_0, mvec_I by auto. rewrite on_axis_rot by auto.
    assert (D1 : forall t u, dot ey (mvec (rot h t) u) = dot ey u) by (intros; apply same_line_dot; auto; unfold unit3, norm2, dot, ey; simpl; ring).
    rewrite !dot_vadd_r, !D1, !dot_vadd_r, !D1. rewrite (vy_dot p0), (ez_p0y p0 O0). ring.
  - rewrite C. set (b := mvec (rot h (q2 + q3 + q4)) p4).
    assert (Nb : norm b = norm p4) by (apply SO3_norm; auto using rot_SO3).
    pose proof (norm_triangle p2 (mvec (rot h q3) p3)) as T1. rewrite (SO3_norm (rot h q3)) in T1 by auto using rot_SO3.
    pose proof (norm_triangle (mvec (rot h q2) (vadd p2 (mvec (rot h q3) p3))) b) as T2. rewrite (SO3_norm (rot h q2)) in T2 by auto using rot_SO3.
    pose proof (norm_triangle p1 (vadd (mvec (rot h q2) (vadd p2 (mvec (rot h q3) p3))) b)) as T3.
    match goal with |- norm (vadd p0 (mvec (rot ez q1) ?u)) <= _ => pose proof (norm_triangle p0 (mvec (rot ez q1) u)) as T4 end.
    rewrite (SO3_norm (rot ez q1)) in T4 by auto using rot_SO3. lra.
Qed.
(** The wrist centre farther from the base than the links are long: whatever is returned is
    empty (C63_ur_regular says when something is returned). *)
Theorem C66_far : forall argsort, argsort_spec argsort ->
  forall r h p0 p1 p2 p3 p4 p5 p6, ur r h p0 p1 p2 p3 p4 p5 p6 -> wf_aux r ->
  forall pose last A v, (forall l, last = Some l -> length l = 6%nat) -> wrist_of r pose (vadd p6 p5) A v ->
  norm p0 + norm p1 + norm p2 + norm p3 + norm p4 < norm v ->
  (forall q, length q = 6%nat -> ~ reaches r q pose) /\
  forall res, ur_invkin argsort r pose last = Ok res -> res = [] /\ last = None.
Proof.
  intros argsort SP r h p0 p1 p2 p3 p4 p5 p6 U W pose last A v LL WO F. split.
  - intros q LQ RC. destruct (list6 q LQ) as (a1 & a2 & a3 & a4 & a5 & a6 & ->).
    destruct (ur_side r _ _ _ _ _ _ _ _ U W pose A v a1 a2 a3 a4 a5 a6 WO RC) as [_ B]. lra.
  - intros res E. destruct (wrist_unique r pose _ A v W WO) as [EV _]. rewrite EV in F.
    pose proof (ur_far argsort SP r _ _ _ _ _ _ _ _ U pose last res F E) as ->. split; auto.
    destruct last as [lj|]; auto. destruct (C38_ur argsort SP r _ _ _ _ _ _ _ _ U pose lj [] E) as (_ & q & rest & X & _). discriminate.
Qed.
(** The wrist centre too close to the first axis, or on the far side. *)
Theorem C66_close : forall argsort, argsort_spec argsort ->
  forall r h p0 p1 p2 p3 p4 p5 p6, ur r h p0 p1 p2 p3 p4 p5 p6 -> wf_aux r ->
  forall pose last A v, (forall l, last = Some l -> length l = 6%nat) -> wrist_of r pose (vadd p6 p5) A v ->
  let side t := dot ey (rotate ez (- t) v) in let d := dot ey (vadd (vadd (vadd p1 p2) p3) p4) in
  ((forall t, side t <> d) -> forall q, length q = 6%nat -> ~ reaches r q pose) /\
  ((forall t, side t < d) -> ur_invkin argsort r pose last = match last with None => Ok [] | Some _ => Err ValueError end) /\
  ((forall t, d < side t) -> ~ no_limits r -> ur_invkin argsort r pose last = match last with None => Ok [] | Some _ => Err ValueError end) /\
  ((forall t, d < side t) -> no_limits r -> last = None -> ur_invkin argsort r pose last = Err AssertionError).
Proof.
  intros argsort SP r h p0 p1 p2 p3 p4 p5 p6 U W pose last A v LL WO side d.
  destruct (wrist_unique r pose _ A v W WO) as [EV _].
  split; [|split; [|split]].
  - intros ND q LQ RC. destruct (list6 q LQ) as (a1 & a2 & a3 & a4 & a5 & a6 & ->).
    apply (ND a1). apply (ur_side r _ _ _ _ _ _ _ _ U W pose A v a1 a2 a3 a4 a5 a6 WO RC).
  - intros B. apply (ur_beyond argsort SP r _ _ _ _ _ _ _ _ U pose last LL). rewrite <- EV. exact B.
  - intros B. apply (ur_nan_cases argsort SP r _ _ _ _ _ _ _ _ U pose last LL). left. rewrite <- EV. exact B.
  - intros B. apply (ur_nan_cases argsort SP r _ _ _ _ _ _ _ _ U pose last LL). left. rewrite <- EV. exact B.
Qed.

(** * Instances *)
Definition u6 (lo up : option (list R)) : robot :=
  Rb [ez; ey; ey; ey; vneg ez; ey] [ez; vzero; V3 2 0 0; ez; ey; V3 0 (1/2) 0; vzero]
    [Rotary; Rotary; Rotary; Rotary; Rotary; Rotary] lo up None None None None None None None None None None.
Lemma u6_ur lo up : (forall l, lo = Some l -> length l = 6%nat) -> (forall u, up = Some u -> length u = 6%nat) ->
  ur (u6 lo up) ey ez vzero (V3 2 0 0) ez ey (V3 0 (1/2) 0) vzero.
Proof.
  intros L U. split; auto.
  - split; simpl; auto. repeat apply Forall_cons; try apply Forall_nil; unfold unit3, norm2, dot, vneg, ex, ey, ez; simpl; ring.
  - unfold on_axis, perp. la_ring.
  - unfold on_axis, perp. la_ring.
Qed.
Lemma u6_aux lo up : wf_aux (u6 lo up).
Proof. split; simpl; auto; try tauto; try discriminate. Qed.
Lemma u6_limits lo up j l u : limits_of (u6 (Some lo) (Some up)) j l u <-> nth_error lo j = Some l /\ nth_error up j = Some u.
Proof. unfold limits_of. simpl. split; [intros (a & b & A & B & C & D); inversion A; inversion B; subst; auto|intros []; exists lo, up; auto]. Qed.
Lemma u6_point lo up a1 a2 a3 a4 a5 a6 x : robot_point (u6 lo up) [a1; a2; a3; a4; a5; a6] x =
  vadd ez (rotate ez a1 (vadd vzero (rotate ey a2 (vadd (V3 2 0 0) (rotate ey a3 (vadd ez (rotate ey a4 (vadd ey (rotate (vneg ez) a5 (vadd (V3 0 (1/2) 0) (rotate ey a6 (vadd vzero x)))))))))))).
Proof. reflexivity. Qed.
Lemma rotate_zn a b c : rotate (vneg ez) (PI / 2) (V3 a b c) = V3 b (- a) c.
Proof. unfold rotate. rewrite sin_PI2, cos_PI2. la_ring. Qed.
Lemma rotate_full k v : rotate k (2 * PI) v = v.
Proof. unfold rotate. rewrite sin_2PI, cos_2PI. la_ring. Qed.
Definition pose_u : transform := Tf (M3 0 1 0 (-1) 0 0 0 0 1) (V3 (5/2) 1 2) None None.
Definition q_u : list R := [0; 0; 0; 0; PI / 2; 0].
Lemma pose_u_rigid : rigid pose_u.
Proof. unfold rigid, is_SO3, pose_u. cbn [tR]. split; la_ring. Qed.
Lemma q_u_reaches lo up : reaches (u6 lo up) q_u pose_u.
Proof.
  intros [x y z]. unfold q_u. rewrite u6_point. unfold pose_u, act. cbn [tR tp].
  rewrite !rotate_0. change vzero with (V3 0 0 0). rewrite !vadd_V3, rotate_zn.
  change ez with (V3 0 0 1). change ey with (V3 0 1 0). rewrite mvec_V3, !vadd_V3. f_equal; field.
Qed.
Lemma q_u_turns_reaches lo up : reaches (u6 lo up) [0; 2 * PI; 2 * PI; 0; PI / 2; 0] pose_u.
Proof. intros x. rewrite <- (q_u_reaches lo up x). unfold q_u. rewrite !u6_point. rewrite !rotate_full, !rotate_0. reflexivity. Qed.
Lemma u6_wrist lo up Rp w x y z : w = V3 x y z -> wrist_of (u6 lo up) (Tf Rp (vadd w (mvec Rp (V3 0 (1/2) 0))) None None) (vadd vzero (V3 0 (1/2) 0)) Rp (V3 x y z).
Proof.
  intros -> [a b c]. change (act_opt (rbase (u6 lo up))) with (fun x : vec3 => x).
  unfold point6, act_tool, act. cbn [u6 rflange rRtool rptool act_opt tR tp]. destruct Rp. change vzero with (V3 0 0 0).
  rewrite !vadd_V3, !mvec_V3, !vadd_V3. f_equal; ring.
Qed.
Lemma pose_u_wrist lo up : wrist_of (u6 lo up) pose_u (vadd vzero (V3 0 (1/2) 0)) (tR pose_u) (V3 2 1 2).
Proof.
  replace pose_u with (Tf (tR pose_u) (vadd (V3 2 1 2) (mvec (tR pose_u) (V3 0 (1/2) 0))) None None). { apply u6_wrist. reflexivity. }
  unfold pose_u. cbn [tR]. rewrite mvec_V3, vadd_V3. f_equal. f_equal; field.
Qed.
Lemma u6_d : dot ey (vadd (vadd (vadd vzero (V3 2 0 0)) ez) ey) = 1. Proof. la_ring. Qed.
Lemma u6_geometry : ~ on_axis ey (V3 2 0 0) /\ ~ on_axis ey ez /\ norm (perp ey (V3 2 0 0)) <> norm (perp ey ez) /\
  sqrt_eps <= norm (vsub (dir (perp ey ez)) (dir (perp ey (V3 2 0 0)))).
Proof.
  assert (P2 : perp ey (V3 2 0 0) = V3 2 0 0) by (unfold perp; la_ring). assert (P3 : perp ey ez = ez) by (unfold perp; la_ring).
  assert (N2 : norm (V3 2 0 0) = 2) by (apply norm_of_sq; [lra|la_ring]). assert (N3 : norm ez = 1) by (apply norm_of_sq; [lra|la_ring]).
  unfold on_axis. rewrite P2, P3, N2, N3. split. { apply V3_nz. left; lra. } split. { apply V3_nz. right; right; lra. } split. { lra. }
  pose proof sqrt_eps_lt1. pose proof sqrt_eps_pos. unfold dir. rewrite N2, N3.
  apply norm_big; [lra|]. replace (vsub (vscale (/ 1) ez) (vscale (/ 2) (V3 2 0 0))) with (V3 (-1) 0 1).
  - unfold dot. cbn. nra.
  - unfold vsub, vscale, ez. cbn. f_equal; field.
Qed.
Lemma u6_regular : forall q1, dot ey (rotate ez (- q1) (V3 2 1 2)) = dot ey (vadd (vadd (vadd vzero (V3 2 0 0)) ez) ey) ->
  let c := dot (mvec (tR pose_u) ey) (rotate ez q1 ey) in eps <= 1 - c * c.
Proof.
  intros q1 D c. rewrite u6_d, rotate_ez, sin_neg, cos_neg in D. unfold dot, ey in D. cbn [vx vy vz] in D.
  assert (E : c = - sin q1). { unfold c. unfold ey. rewrite rotate_ez. unfold pose_u, mvec, dot. cbn. ring. }
  pose proof (sin2_cos2 q1) as SC. unfold Rsqr in SC. rewrite E. clear c E. generalize dependent (sin q1). generalize (cos q1). intros x s D SC.
  assert (X : x = 1 + 2 * s) by lra. subst x. assert (Z : s * (5 * s + 4) = 0) by lra.
  assert (Eps : eps <= 1 / 4) by (unfold eps; lra).
  apply Rmult_integral in Z as [Z|Z]; [subst; lra|]. assert (s = - (4 / 5)) by lra. subst. lra.
Qed.
Lemma q_u_regular : let e := vadd (V3 2 0 0) (rotate ey 0 ez) in let f := 0 + 0 + 0 in
  ~ on_axis ez (rotate ez 0 (vadd vzero (vadd (rotate ey 0 e) (rotate ey f ey)))) /\ ~ on_axis ey e /\ eps <= sin (PI / 2) * sin (PI / 2) /\
  clear_move ey 0 e /\ clear_move ey f (rotate (vneg ez) (PI / 2) ey) /\ clear_move ey 0 (vneg ez).
Proof.
  cbv zeta. replace (0 + 0 + 0) with 0 by ring. rewrite ?rotate_0.
  split. { intros Z. unfold on_axis, perp in Z. revert Z. unfold vadd, vsub, vscale, dot, ex, ez. cbn. apply V3_nz. left. lra. }
  split. { intros Z. unfold on_axis, perp in Z. revert Z. unfold vadd, vsub, vscale, dot, ex, ey. cbn. apply V3_nz. left. lra. }
  split. { rewrite sin_PI2. unfold eps. lra. }
  split. { left. apply rotate_0. } split. { left. apply rotate_0. } left. apply rotate_0.
Qed.
(** limits -3..3, and 2.5..3 for the fifth joint *)
Definition u_lim := u6 (Some lo3s) (Some up3s).
Definition lo_5 : list R := [-3; -3; -3; -3; 5/2; -3].
Definition u_five := u6 (Some lo_5) (Some up3s).
Lemma u_lim_ur : ur u_lim ey ez vzero (V3 2 0 0) ez ey (V3 0 (1/2) 0) vzero.
Proof. apply u6_ur; intros l E; inversion E; reflexivity. Qed.
Lemma u_five_ur : ur u_five ey ez vzero (V3 2 0 0) ez ey (V3 0 (1/2) 0) vzero.
Proof. apply u6_ur; intros l E; inversion E; reflexivity. Qed.
Lemma u_lim_ok : ur_limits u_lim.
Proof.
  pose proof PI_lower. right. split; [|split]; intros l u L; unfold u_lim in L; apply u6_limits in L as [L1 L2]; inversion L1; inversion L2; subst; unfold narrow; try left; lra.
Qed.
Lemma u_five_ok : ur_limits u_five.
Proof.
  pose proof PI_lower. right. split; [|split]; intros l u L; unfold u_five in L; apply u6_limits in L as [L1 L2]; inversion L1; inversion L2; subst; unfold narrow; try left; lra.
Qed.
Lemma q_u_allowed lo : lo = lo3s \/ lo = lo_5 -> forall j t, j <> 4%nat -> nth_error q_u j = Some t -> allowed (u6 (Some lo) (Some up3s)) j t.
Proof.
  intros Lo j t J T l u L. apply u6_limits in L as [L1 L2]. unfold up3s, q_u in *.
  destruct Lo as [-> | ->]; unfold lo3s, lo_5 in *;
  (do 6 (destruct j as [|j]; [simpl in L1, L2, T; inversion L1; inversion L2; inversion T; subst; try congruence; lra|])); destruct j; discriminate.
Qed.
Lemma q_u_bound : forall j t, j <> 3%nat -> j <> 4%nat -> nth_error q_u j = Some t -> Rabs t < 3 / 2 * PI.
Proof.
  intros j t J1 J2 T. pose proof PI_pos. unfold q_u in T.
  do 6 (destruct j as [|j]; [simpl in T; inversion T; subst; try congruence; rewrite Rabs_R0; lra|]). destruct j; discriminate.
Qed.
Lemma q_u_found lo : lo = lo3s \/ lo = lo_5 -> ur (u6 (Some lo) (Some up3s)) ey ez vzero (V3 2 0 0) ez ey (V3 0 (1/2) 0) vzero -> ur_limits (u6 (Some lo) (Some up3s)) ->
  exists res, ur_invkin insertion_argsort (u6 (Some lo) (Some up3s)) pose_u None = Ok res /\ exists q, In q res /\ turns_eq q q_u.
Proof.
  intros Lo UU UL. destruct u6_geometry as (O2 & O3 & NE & Q). destruct q_u_regular as (R1 & R2 & R3 & R4 & R5 & R6).
  destruct (C64_regular insertion_argsort insertion_argsort_spec _ _ _ _ _ _ _ _ _ UU (u6_aux _ _) UL O2 O3 NE Q
    pose_u (tR pose_u) (V3 2 1 2) pose_u_rigid (pose_u_wrist _ _)) as (res & E & H).
  { left. intros [X|X]; discriminate. } { apply u6_regular. }
  exists res. split; auto. apply H; auto. - apply q_u_reaches. - apply q_u_allowed; auto. - apply q_u_bound.
Qed.
Example C64_ex : rigid pose_u /\ reaches u_lim q_u pose_u /\
  exists res, ur_invkin insertion_argsort u_lim pose_u None = Ok res /\ exists q, In q res /\ turns_eq q q_u.
Proof.
  split; [apply pose_u_rigid|]. split; [apply q_u_reaches|]. apply q_u_found; auto using u_lim_ur, u_lim_ok.
Qed.
(** The premises of C42 and C43 are met by the answer found above. *)
Example C42_ex : ur u_lim ey ez vzero (V3 2 0 0) ez ey (V3 0 (1/2) 0) vzero /\ wf_aux u_lim /\ rigid pose_u /\
  exists res q, ur_invkin insertion_argsort u_lim pose_u None = Ok res /\ In q res.
Proof.
  split; [apply u_lim_ur|]. split; [apply u6_aux|]. split; [apply pose_u_rigid|].
  destruct C64_ex as (_ & _ & res & E & q & I & _). eauto.
Qed.
(** False as stated: a returned vector whose fifth joint violates its limits, so that fwdkin
    rejects it. *)
Theorem C43_refuted : exists argsort r pose res q, argsort_spec argsort /\ wf_robot r /\ rigid pose /\
  ur_invkin argsort r pose None = Ok res /\ In q res /\ ~ within_limits r q /\ fwdkin r q false = Err AssertionError.
Proof.
  destruct (q_u_found lo_5 (or_intror eq_refl) u_five_ur u_five_ok) as (res & E & q & I & T).
  exists insertion_argsort, u_five, pose_u, res, q. pose proof (ur_wf _ _ _ _ _ _ _ _ _ u_five_ur) as WF.
  split; [apply insertion_argsort_spec|]. split; auto. split; [apply pose_u_rigid|]. split; auto. split; auto.
  assert (NW : ~ within_limits u_five q).
  { unfold turns_eq, q_u in T. repeat match goal with F : Forall2 _ _ (_ :: _) |- _ => inversion F; clear F; subst end.
    match goal with F : Forall2 _ _ [] |- _ => inversion F; subst end. match goal with F : ang_eq _ (PI / 2) |- _ => destruct F as [n N] end.
    intros [A B]. unfold lo_5, up3s in *. repeat match goal with F : Forall2 Rle (_ :: _) _ |- _ => inversion F; clear F; subst end.
    pose proof PI_lower. pose proof PI_4.
    assert (-1 < IZR n < 1) by (split; nra). assert (-1 < n < 1)%Z by (split; apply lt_IZR; lra). assert (n = 0%Z) as -> by lia. lra. }
  split; auto. apply fwdkin_limits; auto. destruct (C43_limits insertion_argsort insertion_argsort_spec _ _ _ _ _ _ _ _ _ u_five_ur (u6_aux _ _) pose_u None res q pose_u_rigid E I) as [L _].
  rewrite L. reflexivity.
Qed.
(** Tracking from a nearby vector; the premise of C38 is met too. *)
Definition q_un : list R := [1/10; 1/10; 1/10; 1/10; PI / 2; 1/10].
Example C65_ur_ex : exists q rest b5, ur_invkin insertion_argsort u_lim pose_u (Some q_un) = Ok (q :: rest) /\ ang_eq b5 (PI / 2) /\ - PI <= b5 <= PI /\
  In [0; 0; 0; 0; b5; 0] (q :: rest) /\ euclid q q_un <= euclid [0; 0; 0; 0; b5; 0] q_un.
Proof.
  destruct u6_geometry as (O2 & O3 & NE & Q). destruct q_u_regular as (R1 & R2 & R3 & R4 & R5 & R6). pose proof PI_lower.
  apply (C65_ur_regular insertion_argsort insertion_argsort_spec u_lim _ _ _ _ _ _ _ _ u_lim_ur (u6_aux _ _) O2 O3 NE Q
    pose_u (tR pose_u) (V3 2 1 2) pose_u_rigid (pose_u_wrist _ _)); auto.
  - left. intros [X|X]; discriminate.
  - apply u6_regular.
  - apply q_u_reaches.
  - apply (q_u_allowed lo3s). auto.
  - apply q_u_bound.
  - replace (0 + 0 + 0) with 0 by ring. rewrite Rabs_R0. lra.
  - intros j t lj J4 J L. assert (B : lj - t = 1/10).
    { unfold q_un in L. do 6 (destruct j as [|j]; [simpl in J, L; inversion J; inversion L; subst; try congruence; lra|]). destruct j; discriminate. }
    apply Rabs_def1; lra.
Qed.
Example C38_ur_ex : exists res, ur_invkin insertion_argsort u_lim pose_u (Some q_un) = Ok res /\ res <> [].
Proof. destruct C65_ur_ex as (q & rest & b5 & E & _). exists (q :: rest). split; [auto|discriminate]. Qed.
(** A solution inside the limits that is lost: the fourth joint is computed from normalised
    values and only one turn is tried either way. *)
Definition lo_t : list R := [-3; 2 * PI - 1; 2 * PI - 1; -1; -3; -3].
Definition up_t : list R := [3; 2 * PI + 1; 2 * PI + 1; 1; 3; 3].
Theorem C64_lost_refuted : exists argsort r pose q, argsort_spec argsort /\ wf_robot r /\ rigid pose /\ reaches r q pose /\ within_limits r q /\
  ur_invkin argsort r pose None = Ok [].
Proof.
  set (u_t := u6 (Some lo_t) (Some up_t)).
  assert (UU : ur u_t ey ez vzero (V3 2 0 0) ez ey (V3 0 (1/2) 0) vzero) by (apply u6_ur; intros l E; inversion E; reflexivity).
  exists insertion_argsort, u_t, pose_u, [0; 2 * PI; 2 * PI; 0; PI / 2; 0].
  pose proof PI_lower. pose proof PI_4.
  split; [apply insertion_argsort_spec|]. split; [apply (ur_wf _ _ _ _ _ _ _ _ _ UU)|]. split; [apply pose_u_rigid|]. split; [apply q_u_turns_reaches|].
  split. { split; repeat apply Forall2_cons; try apply Forall2_nil; lra. }
  destruct u6_geometry as (O2 & O3 & NE & Q).
  destruct (C63_ur_regular insertion_argsort insertion_argsort_spec u_t _ _ _ _ _ _ _ _ UU (u6_aux _ _) O2 O3 NE pose_u None (tR pose_u) (V3 2 1 2) pose_u_rigid ltac:(discriminate) (pose_u_wrist _ _)) as [[res E]|[_ X]].
  { left. intros [X|X]; discriminate. } { apply u6_regular. } 2:{ congruence. }
  rewrite E. f_equal. destruct res as [|q res]; auto. exfalso.
  destruct (ur_path insertion_argsort insertion_argsort_spec u_t _ _ _ _ _ _ _ _ UU pose_u None (q :: res) q E (or_introl eq_refl)) as (q1 & q2 & q3 & q4 & q5 & q6 & -> & PT).
  destruct (C43_limits insertion_argsort insertion_argsort_spec u_t _ _ _ _ _ _ _ _ UU (u6_aux _ _) pose_u None _ _ pose_u_rigid E (or_introl eq_refl)) as (_ & AL & _).
  assert (B2 := AL 1%nat q2 ltac:(auto) eq_refl (2 * PI - 1) (2 * PI + 1) ltac:(apply u6_limits; auto)).
  assert (B3 := AL 2%nat q3 ltac:(auto) eq_refl (2 * PI - 1) (2 * PI + 1) ltac:(apply u6_limits; auto)).
  assert (B4 := AL 3%nat q4 ltac:(auto) eq_refl (-1) 1 ltac:(apply u6_limits; auto)).
  destruct (path_ur_turn _ _ _ _ _ _ _ _ _ _ _ _ _ _ _ (or_introl eq_refl) (rigid_unapply_aux u_t pose_u (u6_aux _ _) pose_u_rigid) PT) as (_ & q24 & B24 & M4).
  apply normalize_turns in M4; [|apply (ur_wf _ _ _ _ _ _ _ _ _ UU)|simpl; lia]. lra.
Qed.
(** The zero position has its wrist aligned: the call fails although a solution exists. *)
Definition pose_uz : transform := Tf I3 (V3 2 (3/2) 2) None None.
Lemma q_uz_reaches lo up : reaches (u6 lo up) [0; 0; 0; 0; 0; 0] pose_uz.
Proof.
  intros [x y z]. rewrite u6_point. unfold pose_uz, act, I3. cbn [tR tp].
  rewrite !rotate_0. change vzero with (V3 0 0 0). change ez with (V3 0 0 1). change ey with (V3 0 1 0). rewrite mvec_V3, !vadd_V3. f_equal; field.
Qed.
Lemma u6_wrist_I lo up x y z : wrist_of (u6 lo up) (Tf I3 (V3 x (y + 1 / 2) z) None None) (vadd vzero (V3 0 (1/2) 0)) I3 (V3 x y z).
Proof.
  replace (V3 x (y + 1/2) z) with (vadd (V3 x y z) (mvec I3 (V3 0 (1/2) 0))); [apply u6_wrist; reflexivity|].
  rewrite mvec_I, vadd_V3. f_equal; ring.
Qed.
Lemma u_lim_0 : allowed u_lim 0 0. Proof. apply (q_u_allowed lo3s (or_introl eq_refl) 0); auto. Qed.
Lemma u6_aligned x z : x <> 0 -> ur_invkin insertion_argsort u_lim (Tf I3 (V3 x (1 + 1 / 2) z) None None) None = Err AssertionError.
Proof.
  intros X. pose proof PI_pos. apply (C64_singular insertion_argsort insertion_argsort_spec u_lim _ _ _ _ _ _ _ _ u_lim_ur (u6_aux _ _) (Tf I3 (V3 x (1 + 1 / 2) z) None None) I3 (V3 x 1 z) SO3_I (u6_wrist_I _ _ _ _ _) 0).
  - rewrite u6_d, Ropp_0, rotate_0. la_ring.
  - intros Z. unfold on_axis, perp in Z. revert Z. unfold vsub, vscale, dot, ez. cbn. apply V3_nz. left. lra.
  - apply u_lim_0.
  - rewrite Rabs_R0. lra.
  - cbv zeta. rewrite mvec_I, rotate_0. replace (dot ey ey) with 1 by la_ring. pose proof eps_pos. lra.
Qed.
Theorem C64_singular_refuted : exists argsort r pose q, argsort_spec argsort /\ wf_robot r /\ rigid pose /\ reaches r q pose /\ within_limits r q /\
  ur_invkin argsort r pose None = Err AssertionError.
Proof.
  exists insertion_argsort, u_lim, pose_uz, [0; 0; 0; 0; 0; 0].
  split; [apply insertion_argsort_spec|]. split; [apply (ur_wf _ _ _ _ _ _ _ _ _ u_lim_ur)|]. split; [apply SO3_I|]. split; [apply q_uz_reaches|].
  split. { split; repeat apply Forall2_cons; try apply Forall2_nil; lra. }
  replace pose_uz with (Tf I3 (V3 2 (1 + 1 / 2) 2) None None); [apply u6_aligned; lra|]. unfold pose_uz. do 2 f_equal. field.
Qed.
(** C66 *)
Lemma u6_reach : norm ez + norm vzero + norm (V3 2 0 0) + norm ez + norm ey <= 10.
Proof.
  assert (norm (V3 2 0 0) = 2) by (apply norm_of_sq; [lra|la_ring]). assert (norm ez = 1) by (apply norm_of_sq; [lra|la_ring]).
  assert (norm ey = 1) by (apply norm_of_sq; [lra|la_ring]). rewrite norm_vzero. lra.
Qed.
Lemma u6_unreachable lo up x y z : (forall l, lo = Some l -> length l = 6%nat) -> (forall u, up = Some u -> length u = 6%nat) ->
  10 < x -> forall q, length q = 6%nat -> ~ reaches (u6 lo up) q (Tf I3 (V3 x (y + 1/2) z) None None).
Proof.
  intros L U X. apply (C66_far insertion_argsort insertion_argsort_spec _ _ _ _ _ _ _ _ _ (u6_ur lo up L U) (u6_aux _ _) _ None I3 (V3 x y z) ltac:(discriminate) (u6_wrist_I _ _ _ _ _)).
  pose proof u6_reach. assert (x <= norm (V3 x y z)); [|lra]. apply norm_big; [lra|]. unfold dot. cbn. nra.
Qed.
(** The wrist at (0,0,5), nowhere near the offset of one to the side. *)
Definition pose_up : transform := Tf I3 (V3 0 (0 + 1/2) 5) None None.
Lemma pose_up_side t : dot ey (rotate ez (- t) (V3 0 0 5)) < dot ey (vadd (vadd (vadd vzero (V3 2 0 0)) ez) ey).
Proof. rewrite u6_d, rotate_ez. unfold dot, ey. cbn. lra. Qed.
Example C66_ex : (forall q, length q = 6%nat -> ~ reaches u_lim q pose_up) /\ ur_invkin insertion_argsort u_lim pose_up None = Ok [].
Proof.
  destruct (C66_close insertion_argsort insertion_argsort_spec u_lim _ _ _ _ _ _ _ _ u_lim_ur (u6_aux _ _) pose_up None I3 (V3 0 0 5) ltac:(discriminate) (u6_wrist_I _ _ _ _ _)) as (A & B & _).
  split; [apply A; intros t; pose proof (pose_up_side t); lra|apply B, pose_up_side].
Qed.
(** False as stated: with last_joints the answer is a ValueError ... *)
Theorem C66_last_refuted : exists argsort r pose lj, argsort_spec argsort /\ wf_robot r /\ rigid pose /\ length lj = 6%nat /\
  (forall q, length q = 6%nat -> ~ reaches r q pose) /\ ur_invkin argsort r pose (Some lj) = Err ValueError.
Proof.
  exists insertion_argsort, u_lim, pose_up, q_u. split; [apply insertion_argsort_spec|]. split; [apply (ur_wf _ _ _ _ _ _ _ _ _ u_lim_ur)|]. split; [apply SO3_I|].
  split; auto. split; [apply C66_ex|].
  destruct (C66_close insertion_argsort insertion_argsort_spec u_lim _ _ _ _ _ _ _ _ u_lim_ur (u6_aux _ _) pose_up (Some q_u) I3 (V3 0 0 5) ltac:(intros l E; inversion E; reflexivity) (u6_wrist_I _ _ _ _ _)) as (_ & B & _).
  apply B, pose_up_side.
Qed.
(** ... and far away with the wrist aligned an assertion fails. *)
Theorem C66_aligned_refuted : exists argsort r pose, argsort_spec argsort /\ wf_robot r /\ rigid pose /\
  (forall q, length q = 6%nat -> ~ reaches r q pose) /\ ur_invkin argsort r pose None = Err AssertionError.
Proof.
  exists insertion_argsort, u_lim, (Tf I3 (V3 100 (1 + 1/2) 0) None None). split; [apply insertion_argsort_spec|]. split; [apply (ur_wf _ _ _ _ _ _ _ _ _ u_lim_ur)|]. split; [apply SO3_I|].
  split. { apply u6_unreachable; [apply lo6|apply up6|lra]. } apply u6_aligned. lra.
Qed.
Print Assumptions C42_sound. Print Assumptions C43_limits. Print Assumptions C64_regular. Print Assumptions C65_ur_regular. Print Assumptions C64_lost_refuted.
